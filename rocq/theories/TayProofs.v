(** * Proofs about the value stack. *)
From Coq Require Import List Arith Lia ZArith Bool.
From Verif Require Import TayModel TaySpec.
Import ListNotations.
Set Implicit Arguments.

Section Proofs.
Variable V : Type.
Variable cap : nat.
Hypothesis cap_pos : 0 < cap.
Hypothesis cap_64 : (Z.of_nat cap < 2 ^ 64)%Z.
Implicit Types (s : tay V) (st : list V).

Lemma set_eq (b : nat -> V) i v : set b i v i = v.
Proof. unfold set. now rewrite Nat.eqb_refl. Qed.
Lemma set_neq (b : nat -> V) i v j : j <> i -> set b i v j = b j.
Proof. intros H. unfold set. destruct (Nat.eqb_spec j i); congruence. Qed.

Lemma prefix_len n (b : nat -> V) : length (prefix n b) = n.
Proof. unfold prefix. now rewrite map_length, seq_length. Qed.
Lemma prefix_S n (b : nat -> V) : prefix (S n) b = prefix n b ++ [b n].
Proof. unfold prefix. rewrite seq_S, map_app. reflexivity. Qed.
Lemma prefix_ext n (b b' : nat -> V) : (forall i, i < n -> b i = b' i) -> prefix n b = prefix n b'.
Proof. intros H. apply map_ext_in. intros i Hi. apply in_seq in Hi. apply H. lia. Qed.
Lemma prefix_nth n (b : nat -> V) i d : i < n -> nth i (prefix n b) d = b i.
Proof.
  intros H. unfold prefix. rewrite nth_indep with (d' := b 0) by (now rewrite map_length, seq_length).
  rewrite map_nth, seq_nth by auto. reflexivity.
Qed.

(** ** Writing phase *)
Record WI (st : list V) (s : tay V) : Prop := {
  wi_pos : tpos s <= cap;
  wi_st : st = (match tfile s with Some f => f | None => [] end) ++ prefix (tpos s) (tbuf s);
  wi_num : tnum s = length (match tfile s with Some f => f | None => [] end);
  wi_blk : exists k, tnum s = k * cap /\ (tfile s = None <-> k = 0) }.

Lemma begin_WI s : WI [] (taylor_begin s).
Proof.
  constructor; cbn; auto; try lia. exists 0. cbn. split; [auto|tauto].
Qed.

Lemma put_WI st s : WI st s -> tpos s = cap -> WI st (put_block s cap) /\ tpos (put_block s cap) = 0.
Proof.
  intros [H1 H2 H3 (k & H4 & H5)] E. split; [|reflexivity]. constructor; cbn [put_block tpos tbuf tfile tnum].
  - lia.
  - rewrite H2, E. cbn. now rewrite app_nil_r.
  - rewrite app_length, prefix_len. lia.
  - exists (S k). split; [cbn; lia|]. split; intro; discriminate.
Qed.

Lemma store_some s i v : i < cap -> store cap s i v = Some (with_buf s (set (tbuf s) i v)).
Proof. intros H. unfold store. destruct (Nat.ltb_spec i cap); [auto|lia]. Qed.

Lemma push_WI st s v : WI st s -> tpos s < cap ->
  exists s', push1 cap s v = Some s' /\ WI (st ++ [v]) s' /\ 0 < tpos s'.
Proof.
  intros [H1 H2 H3 H4] L. unfold push1. rewrite store_some by auto.
  eexists. split; [reflexivity|]. split; [|cbn; lia].
  constructor; cbn [at_pos with_buf tpos tbuf tfile tnum]; auto.
  rewrite prefix_S, set_eq, app_assoc, H2. f_equal. f_equal. apply prefix_ext. intros i Hi.
  rewrite set_neq by lia. reflexivity.
Qed.

Lemma scaylor_WI st s v : WI st s ->
  exists s', write_scaylor cap s v = Some s' /\ WI (st ++ [v]) s' /\ 0 < tpos s'.
Proof.
  intros H. unfold write_scaylor. destruct (Nat.eqb_spec (tpos s) cap).
  - destruct (put_WI H e) as [H' E]. apply push_WI; [auto|lia].
  - apply push_WI; [auto|]. destruct H. lia.
Qed.

(** copying into the buffer *)
Lemma copy_spec n : forall s i p o, i + n <= cap ->
  exists s', copy_in cap s i p o n = Some s' /\
    s' = with_buf s (tbuf s') /\
    (forall j, tbuf s' j = if (i <=? j) && (j <? i + n) then p (o + (j - i)) else tbuf s j).
Proof.
  induction n as [|n IH]; intros s i p o L; cbn [copy_in].
  - exists s. split; [auto|]. split; [destruct s; reflexivity|]. intros j.
    destruct (Nat.leb_spec i j), (Nat.ltb_spec j (i + 0)); cbn; auto; lia.
  - rewrite store_some by lia. destruct (IH (with_buf s (set (tbuf s) i (p o))) (S i) p (S o)) as (s' & E & F & G); [lia|].
    exists s'. split; [exact E|]. split; [rewrite F; reflexivity|].
    intros j. rewrite G. cbn [with_buf tbuf].
    destruct (Nat.leb_spec (S i) j), (Nat.ltb_spec j (S i + n)), (Nat.leb_spec i j), (Nat.ltb_spec j (i + S n));
      cbn [andb]; try lia.
    + f_equal. lia.
    + rewrite set_neq by lia. auto.
    + assert (j = i) by lia. subst. rewrite set_eq. f_equal. lia.
    + rewrite set_neq by lia. auto.
Qed.

Lemma prefix_copy s s' i p o n : s' = with_buf s (tbuf s') ->
  (forall j, tbuf s' j = if (i <=? j) && (j <? i + n) then p (o + (j - i)) else tbuf s j) ->
  prefix (i + n) (tbuf s') = prefix i (tbuf s) ++ map p (seq o n).
Proof.
  intros _ G. unfold prefix. rewrite seq_app, map_app. f_equal.
  - apply map_ext_in. intros j Hj. apply in_seq in Hj. rewrite G.
    destruct (Nat.leb_spec i j); cbn; auto; lia.
  - cbn. clear - G. revert i o G. 
    assert (H : forall m i o, (forall j, i <= j < i + m -> tbuf s' j = p (o + (j - i))) ->
       map (tbuf s') (seq i m) = map p (seq o m)).
    { induction m as [|m IH]; intros i o G; cbn; auto. f_equal.
      - rewrite G by lia. f_equal. lia.
      - apply IH. intros j Hj. rewrite G by lia. f_equal. lia. }
    intros i o G. apply H. intros j Hj. rewrite G.
    destruct (Nat.leb_spec i j), (Nat.ltb_spec j (i + n)); cbn; auto; lia.
Qed.

Lemma over_spec s keep : keep <= cap -> tpos s <= cap -> over cap s keep = (cap - keep <? tpos s).
Proof.
  intros H1 H2. unfold over. rewrite Z.mod_small by lia.
  destruct (Nat.ltb_spec (cap - keep) (tpos s)).
  - apply Z.gtb_lt. lia.
  - apply not_true_is_false. intro E. apply Z.gtb_lt in E. lia.
Qed.

Lemma block_fit fuel st s p o keep : WI st s -> keep <= cap -> tpos s + keep <= cap ->
  exists s', write_block cap fuel s p o keep = Some s' /\ WI (st ++ map p (seq o keep)) s'.
Proof.
  intros H L F.
  assert (E : over cap s keep = false).
  { rewrite over_spec by (auto; lia). apply Nat.ltb_ge. lia. }
  assert (A : exists s', match copy_in cap s (tpos s) p o keep with
    | Some s' => if tpos s + keep <=? cap then Some (at_pos s' (tpos s + keep)) else None
    | None => None end = Some s' /\ WI (st ++ map p (seq o keep)) s').
  { destruct (copy_spec keep s (tpos s) p o) as (s' & C & D & G); [lia|]. rewrite C.
    destruct (Nat.leb_spec (tpos s + keep) cap); [|lia].
    eexists. split; [reflexivity|]. destruct H as [H1 H2 H3 H4].
    pose proof (@prefix_copy _ _ _ _ _ _ D G) as P.
    constructor; cbn [at_pos tpos tbuf tfile tnum]; auto.
    - rewrite P, app_assoc. rewrite D. cbn [with_buf tfile]. now rewrite <- H2.
    - rewrite D. cbn [with_buf tfile tnum]. auto.
    - rewrite D. cbn [with_buf tfile tnum]. auto. }
  destruct fuel; cbn [write_block]; rewrite E; exact A.
Qed.

Lemma block_WI st s p keep : WI st s -> keep <= cap ->
  exists s', write_block cap (S keep) s p 0 keep = Some s' /\ WI (st ++ map p (seq 0 keep)) s'.
Proof.
  intros H L. destruct (le_lt_dec (tpos s + keep) cap) as [F|F].
  { apply block_fit; auto. }
  pose proof (wi_pos H) as P.
  cbn [write_block]. rewrite over_spec by auto.
  destruct (Nat.ltb_spec (cap - keep) (tpos s)); [|lia].
  destruct (copy_spec (cap - tpos s) s (tpos s) p 0) as (s' & C & D & G); [lia|].
  rewrite C.
  pose proof (@prefix_copy _ _ _ _ _ _ D G) as Q. replace (tpos s + (cap - tpos s)) with cap in Q by lia.
  assert (W : WI (st ++ map p (seq 0 (cap - tpos s))) (put_block s' cap)).
  { destruct H as [H1 H2 H3 (k & H4 & H5)]. rewrite D.
    constructor; cbn [put_block with_buf tpos tbuf tfile tnum].
    - lia.
    - rewrite Q, H2. cbn. now rewrite app_nil_r, app_assoc.
    - rewrite app_length, prefix_len. lia.
    - exists (S k). split; [cbn; lia|]. split; intro; discriminate. }
  destruct (@block_fit keep _ _ p (0 + (cap - tpos s)) (keep - (cap - tpos s)) W) as (s'' & E & W'').
  - lia.
  - rewrite D. cbn. lia.
  - exists s''. split; [exact E|]. rewrite <- app_assoc, <- map_app, <- seq_app in W''.
    replace (cap - tpos s + (keep - (cap - tpos s))) with keep in W'' by lia. exact W''.
Qed.

Lemma dir_WI n : forall st s p o, WI st s ->
  exists s', write_dir cap s p o n = Some s' /\ WI (st ++ map p (seq o n)) s'.
Proof.
  induction n as [|n IH]; intros st s p o H; cbn [write_dir seq map].
  - exists s. rewrite app_nil_r. auto.
  - destruct (scaylor_WI (p o) H) as (s1 & E & W & _). rewrite E.
    destruct (IH _ _ p (S o) W) as (s2 & E2 & W2). exists s2. split; [exact E2|].
    rewrite <- app_assoc in W2. exact W2.
Qed.

Lemma dirs_WI n : forall st s p o keep degree, WI st s ->
  exists s', write_dirs cap s p o keep degree n = Some s' /\
    WI (st ++ flat_map (fun j => map (fun i => p (o + j * Nat.max keep degree + i)) (seq 0 keep)) (seq 0 n)) s'.
Proof.
  induction n as [|n IH]; intros st s p o keep degree H; cbn [write_dirs].
  - exists s. cbn. rewrite app_nil_r. auto.
  - destruct (dir_WI keep p o H) as (s1 & E & W). rewrite E.
    replace (o + keep + (if keep <? degree then degree - keep else 0)) with (o + Nat.max keep degree)
      by (destruct (Nat.ltb_spec keep degree); lia).
    destruct (IH _ _ p (o + Nat.max keep degree) keep degree W) as (s2 & E2 & W2).
    exists s2. split; [exact E2|].
    cbn [seq flat_map]. rewrite <- app_assoc in W2.
    replace (map (fun i => p (o + 0 * Nat.max keep degree + i)) (seq 0 keep)) with (map p (seq o keep)).
    2:{ clear. rewrite <- (Nat.add_0_r o) at 1. 
        assert (A : forall m a, map p (seq (o + a) m) = map (fun i => p (o + 0 * Nat.max keep degree + i)) (seq a m)).
        { induction m; intros a; cbn; auto. f_equal; [f_equal; lia|]. rewrite <- IHm. f_equal. f_equal. lia. }
        apply A. }
    rewrite <- seq_shift, flat_map_concat_map, map_map, <- flat_map_concat_map.
    erewrite flat_map_ext; [exact W2|]. intros a. cbn beta. apply map_ext. intros i. f_equal. cbn. lia.
Qed.

Lemma del_WI st s : WI st s -> 0 < tpos s ->
  exists v s', delete_scaylor cap s = Some (v, s') /\ st = removelast st ++ [v] /\ WI (removelast st) s'.
Proof.
  intros [H1 H2 H3 H4] L. unfold delete_scaylor, pop1. destruct (tpos s) as [|q] eqn:E; [lia|].
  destruct (Nat.ltb_spec q cap); [|lia].
  rewrite prefix_S, app_assoc in H2.
  exists (tbuf s q), (at_pos s q). split; [auto|]. rewrite H2, removelast_last. split; [auto|].
  constructor; cbn [at_pos tpos tbuf tfile tnum]; auto. lia.
Qed.

Lemma wrs_WI ws : forall st s prev, legal cap prev ws -> WI st s -> (prev = true -> 0 < tpos s) ->
  exists s', do_wrs cap s ws = Some s' /\ WI (fold_left (@spec_wr V) ws st) s'.
Proof.
  induction ws as [|w ws IH]; intros st s prev L H P; cbn [do_wrs fold_left].
  - exists s. auto.
  - destruct w as [v|p n|p n|p k d n|]; cbn [legal] in L; cbn [do_wr spec_wr].
    + destruct (scaylor_WI v H) as (s1 & E & W & Q). rewrite E. eapply IH; eauto.
    + destruct (block_WI p H (proj1 L)) as (s1 & E & W). unfold write_taylor. rewrite E.
      eapply IH; eauto. apply L. discriminate.
    + destruct (block_WI p H (proj1 L)) as (s1 & E & W). unfold write_scaylors. rewrite E.
      eapply IH; eauto. apply L. discriminate.
    + destruct (dirs_WI n p 0 k d H) as (s1 & E & W). unfold write_taylors. rewrite E.
      eapply IH; eauto. discriminate.
    + destruct (del_WI H (P (proj1 L))) as (v & s1 & E & _ & W). rewrite E.
      eapply IH; eauto. apply L. discriminate.
Qed.

(** ** Closed stack *)
Record CI (st : list V) (s : tay V) : Prop := {
  ci_num : tnum s = length st;
  ci_file : tfile s = Some st \/ (tfile s = None /\ length st < cap /\ tcore s = true);
  ci_core : tcore s = true -> forall i, i < length st mod cap ->
              nth_error st (length st / cap * cap + i) = Some (tbuf s i) }.

Lemma prefix_nth_error n (b : nat -> V) i : i < n -> nth_error (prefix n b) i = Some (b i).
Proof.
  intros H. unfold prefix. rewrite nth_error_map.
  assert (E : nth_error (seq 0 n) i = Some i).
  { rewrite (nth_error_nth' _ 0) by (now rewrite seq_length). now rewrite seq_nth. }
  now rewrite E.
Qed.

Lemma close_CI st s : WI st s -> length st <> cap -> CI st (taylor_close s).
Proof.
  intros [H1 H2 H3 (k & H4 & H5)] N. unfold taylor_close.
  destruct (tfile s) as [f|] eqn:F.
  - constructor; cbn [put_block tpos tbuf tfile tnum tcore]; rewrite ?F.
    + rewrite H2, app_length, prefix_len. lia.
    + left. now rewrite H2.
    + intros _ i Hi. rewrite H2 in *. rewrite app_length, prefix_len in *.
      assert (Lf : length f = k * cap) by congruence. rewrite Lf in *.
      destruct (Nat.eq_dec (tpos s) cap) as [E|E].
      * rewrite E in Hi. replace (k * cap + cap) with (S k * cap) in Hi by (cbn; lia).
        rewrite Nat.mod_mul in Hi by lia. lia.
      * assert (A : (k * cap + tpos s) mod cap = tpos s).
        { rewrite Nat.add_comm, Nat.mod_add by lia. apply Nat.mod_small. lia. }
        assert (B : (k * cap + tpos s) / cap = k).
        { rewrite Nat.div_add_l by lia. rewrite Nat.div_small by lia. lia. }
        rewrite A in Hi. rewrite B. rewrite nth_error_app2 by lia. rewrite Lf.
        replace (k * cap + i - k * cap) with i by lia. now apply prefix_nth_error.
  - cbn [app] in H2. assert (L : length st = tpos s) by (rewrite H2; apply prefix_len).
    constructor; cbn [tpos tbuf tfile tnum tcore].
    + lia.
    + right. repeat split; auto. lia.
    + intros _ i Hi. rewrite L in *. rewrite Nat.mod_small in Hi by lia. rewrite Nat.div_small by lia. cbn.
      rewrite H2. now apply prefix_nth_error.
Qed.

(** ** Reading phase: [h] elements of [st] are left *)
Record RI (st : list V) (h : nat) (s : tay V) : Prop := {
  ri_ci : CI st s;
  ri_h : h <= length st;
  ri_eq : exists k, tnext s = (Z.of_nat k - 1)%Z /\ h = k * cap + tpos s /\ tpos s <= cap /\
          (tfile s = None -> k = 0) /\
          forall i, i < tpos s -> nth_error st (k * cap + i) = Some (tbuf s i) }.

Lemma skipn_nth_error (l : list V) a i : nth_error (skipn a l) i = nth_error l (a + i).
Proof. revert l i. induction a; intros [|x l] i; cbn; auto. now destruct i. Qed.
Lemma nth_error_def (l : list V) i d : i < length l -> nth_error l i = Some (nth i l d).
Proof. intros. now apply nth_error_nth'. Qed.

Lemma nth_skip st a i d : a + i < length st -> nth_error st (a + i) = Some (nth i (skipn a st) d).
Proof.
  intros H. rewrite <- skipn_nth_error. apply nth_error_def. rewrite skipn_length. lia.
Qed.
Lemma back_RI st s : CI st s -> exists s', taylor_back cap s = Some s' /\ RI st (length st) s'.
Proof.
  intros [H1 H2 H3]. unfold taylor_back. rewrite H1.
  pose proof (Nat.div_mod (length st) cap ltac:(lia)) as DM.
  pose proof (Nat.mod_upper_bound (length st) cap ltac:(lia)) as MB.
  rewrite Nat.mul_comm in DM.
  destruct (tcore s) eqn:K.
  - eexists. split; [reflexivity|].
    constructor; [constructor; cbn [tnum tfile tcore tbuf]; auto | lia |].
    exists (length st / cap). cbn [tnext tpos tfile tbuf]. repeat split; auto; try lia.
    intros F. destruct H2 as [H2|(_ & H2 & _)]; [congruence|]. apply Nat.div_small. auto.
  - destruct H2 as [H2|(_ & _ & H2)]; [|congruence]. rewrite H2.
    destruct (Nat.leb_spec (length st / cap * cap + length st mod cap) (length st)); [|lia].
    assert (G : forall i, i < length st mod cap -> nth_error st (length st / cap * cap + i) =
       Some (if i <? length st mod cap then nth i (skipn (length st / cap * cap) st) (tbuf s i) else tbuf s i)).
    { intros i Hi. destruct (Nat.ltb_spec i (length st mod cap)); [|lia].
      apply nth_skip. lia. }
    eexists. split; [reflexivity|].
    constructor; [constructor; cbn [tnum tfile tcore tbuf]; auto | lia |].
    exists (length st / cap). cbn [tnext tpos tfile tbuf]. repeat split; auto; try lia.
    intros F. discriminate.
Qed.

(** loading the previous block *)
Lemma load_RI st h s : RI st h s -> tpos s = 0 -> 0 < h ->
  exists s', get_tay_block_r cap s = Some s' /\ RI st h s' /\ tpos s' = cap.
Proof.
  intros [[C1 C2 C3] H1 (k & E1 & E2 & E3 & E4 & E5)] P L. unfold get_tay_block_r.
  assert (K : k <> 0) by (intros ->; cbn in E2; lia).
  destruct k as [|k]; [lia|].
  destruct C2 as [C2|(C2 & _)]; [|exfalso; auto]. rewrite C2.
  destruct (Z.ltb_spec (tnext s) 0); [lia|].
  replace (Z.to_nat (tnext s)) with k by lia.
  assert (E2' : h = k * cap + cap) by (cbn in E2; lia).
  destruct (Nat.leb_spec (k * cap + cap) (length st)); [|lia].
  eexists. split; [reflexivity|]. split; [|reflexivity].
  constructor; auto.
  - constructor; cbn [tnum tfile tcore tbuf]; auto. discriminate.
  - exists k. cbn [tnext tpos tfile tbuf]. split; [lia|]. split; [lia|]. split; [lia|]. split; [congruence|].
    intros i Hi. apply nth_skip. lia.
Qed.

Lemma pop_RI st h s : RI st h s -> 0 < tpos s ->
  exists v s', pop1 cap s = Some (v, s') /\ RI st (h - 1) s' /\ nth_error st (h - 1) = Some v /\
    tpos s' = tpos s - 1 /\ 0 < h.
Proof.
  intros [C H1 (k & E1 & E2 & E3 & E4 & E5)] P. unfold pop1.
  destruct (tpos s) as [|q] eqn:Q; [lia|].
  destruct (Nat.ltb_spec q cap); [|lia].
  eexists _, _. split; [reflexivity|]. split; [|split; [|cbn; lia]].
  - constructor; [destruct C; constructor; auto|lia|].
    exists k. cbn [at_pos tnext tpos tfile tbuf]. repeat split; auto; try lia. 
  - replace (h - 1) with (k * cap + q) by lia. apply E5. lia.
Qed.

Lemma get_RI st h s : RI st h s -> 0 < h ->
  exists v s', get_taylor cap s = Some (v, s') /\ RI st (h - 1) s' /\ nth_error st (h - 1) = Some v.
Proof.
  intros H L. unfold get_taylor. destruct (Nat.eqb_spec (tpos s) 0).
  - destruct (load_RI H e L) as (s1 & E & R & P). rewrite E.
    destruct (pop_RI R) as (v & s2 & A & B & C & _); [lia|]. eauto.
  - destruct (pop_RI H) as (v & s2 & A & B & C & _); [lia|]. eauto.
Qed.

Lemma pop_into_RI n : forall st h s T t, RI st h s -> n <= tpos s -> n <= t ->
  exists T' s', pop_into cap s T t n = Some (T', s') /\ RI st (h - n) s' /\ n <= h /\
    forall i, T' i = if (t - n <=? i) && (i <? t) then nth (h - n + (i - (t - n))) st (T i) else T i.
Proof.
  induction n as [|n IH]; intros st h s T t H L Lt; cbn [pop_into].
  - exists T, s. rewrite Nat.sub_0_r. split; [auto|]. split; [auto|]. split; [lia|].
    intros i. destruct (Nat.leb_spec (t - 0) i), (Nat.ltb_spec i t); cbn; auto; lia.
  - destruct (pop_RI H) as (v & s1 & A & B & C & D & E); [lia|]. rewrite A.
    destruct (IH _ _ _ (set T (t - 1) v) (t - 1) B) as (T' & s' & F & G & G1 & K); [lia|lia|].
    exists T', s'. split; [exact F|]. replace (h - S n) with (h - 1 - n) by lia. split; [exact G|]. split; [lia|].
    intros i. rewrite K.
    assert (Hlen : h - 1 < length st) by (apply nth_error_Some; congruence).
    destruct (Nat.leb_spec (t - 1 - n) i), (Nat.ltb_spec i (t - 1)), (Nat.leb_spec (t - S n) i), (Nat.ltb_spec i t);
      cbn [andb]; try lia; try (rewrite set_neq by lia); auto.
    + f_equal. lia.
    + assert (i = t - 1) by lia. subst i. rewrite set_eq.
      replace (h - 1 - n + (t - 1 - (t - S n))) with (h - 1) by lia.
      symmetry. now apply nth_error_nth.
Qed.

Lemma sub_list (st : list V) a n : a + n <= length st ->
  firstn (a + n) st = firstn a st ++ firstn n (skipn a st).
Proof.
  intros H. rewrite <- (firstn_skipn a st) at 1. rewrite firstn_app, firstn_firstn.
  rewrite firstn_length. replace (Nat.min (a + n) a) with a by lia.
  f_equal. f_equal. lia.
Qed.
Lemma nth_firstn_skipn (st : list V) a n i d : i < n -> nth i (firstn n (skipn a st)) d = nth (a + i) st d.
Proof.
  intros H.
  assert (A : forall (l : list V) n i, i < n -> nth i (firstn n l) d = nth i l d).
  { clear. induction l as [|x l IH]; intros [|m] [|i] Hi; cbn; auto; try lia. apply IH. lia. }
  rewrite A by auto. clear A H. revert st. induction a as [|a IH]; intros [|x st]; cbn; auto. now destruct i.
Qed.
Lemma firstn_S_last (st : list V) h v : nth_error st h = Some v -> firstn (S h) st = firstn h st ++ [v].
Proof.
  revert h. induction st as [|x st IH]; intros [|h] E; cbn in *; try discriminate.
  - now inversion E.
  - f_equal. now apply IH.
Qed.

Lemma get_taylors_RI st h s T d : RI st h s -> d <= h ->
  (d <= h mod cap \/ (h mod cap = 0 /\ d <= cap)) ->
  exists T' s', get_taylors cap s T d = Some (T', s') /\ RI st (h - d) s' /\
    forall i, T' i = if i <? d then nth (h - d + i) st (T i) else T i.
Proof.
  intros H L F. unfold get_taylors.
  pose proof H as [_ Hh (k & _ & E2 & E3 & _)].
  assert (Fin : forall s', RI st h s' -> d <= tpos s' ->
    exists T' s'', pop_into cap s' T d d = Some (T', s'') /\ RI st (h - d) s'' /\
      forall i, T' i = if i <? d then nth (h - d + i) st (T i) else T i).
  { intros s' R P. destruct (pop_into_RI T R P (le_n d)) as (T' & s'' & A & B & _ & C).
    exists T', s''. split; [auto|]. split; [auto|]. intros i. rewrite C. rewrite Nat.sub_diag.
    cbn [Nat.leb andb]. destruct (Nat.ltb_spec i d); auto. f_equal. lia. }
  destruct (Nat.ltb_spec (tpos s) d) as [P|P].
  - assert (Z : tpos s = 0).
    { destruct (Nat.eq_dec (tpos s) cap) as [e|e].
      - rewrite E2, e in F. replace (k * cap + cap) with (S k * cap) in F by (cbn; lia).
        rewrite Nat.mod_mul in F by lia. lia.
      - rewrite E2, Nat.add_comm, Nat.mod_add, Nat.mod_small in F by lia. lia. }
    assert (Hp : 0 < h) by lia. destruct (load_RI H Z Hp) as (s1 & A & B & C).
    cbn [get_loop]. destruct (Nat.ltb_spec (tpos s) d); [|lia].
    rewrite Z. cbn [drain]. rewrite A.
    assert (D : d <= cap).
    { destruct F as [F|F]; [|lia]. pose proof (Nat.mod_upper_bound h cap). lia. }
    rewrite Nat.sub_0_r. destruct d as [|d]; [lia|]. cbn [get_loop].
    destruct (Nat.ltb_spec (tpos s1) (S d)); [lia|]. apply Fin; [auto|lia].
  - cbn [get_loop]. destruct (Nat.ltb_spec (tpos s) d); [lia|]. apply Fin; auto.
Qed.

Lemma get_dir_RI n : forall st h s T t, RI st h s -> n <= h -> n <= t ->
  exists T' s', get_dir cap s T t n = Some (T', s', t - n) /\ RI st (h - n) s' /\
    forall i, T' i = if (t - n <=? i) && (i <? t) then nth (h - n + (i - (t - n))) st (T i) else T i.
Proof.
  induction n as [|n IH]; intros st h s T t H L Lt; cbn [get_dir].
  - exists T, s. rewrite !Nat.sub_0_r. split; [auto|]. split; [auto|].
    intros i. destruct (Nat.leb_spec t i), (Nat.ltb_spec i t); cbn; auto; lia.
  - destruct (get_RI H) as (v & s1 & A & B & C); [lia|]. rewrite A.
    destruct (IH _ _ _ (set T (t - 1) v) (t - 1) B) as (T' & s' & F & G & K); [lia|lia|].
    exists T', s'. replace (t - S n) with (t - 1 - n) by lia. split; [exact F|].
    replace (h - S n) with (h - 1 - n) by lia. split; [exact G|].
    intros i. rewrite K.
    assert (Hlen : h - 1 < length st) by (apply nth_error_Some; congruence).
    destruct (Nat.leb_spec (t - 1 - n) i), (Nat.ltb_spec i (t - 1)), (Nat.ltb_spec i t);
      cbn [andb]; try lia; try (rewrite set_neq by lia); auto.
    assert (i = t - 1) by lia. subst i. rewrite set_eq.
    replace (h - 1 - n + (t - 1 - (t - 1 - n))) with (h - 1) by lia.
    symmetry. now apply nth_error_nth.
Qed.

(** all directions: direction j (of m) occupies T[j*(d+1)+1 .. j*(d+1)+d] *)
Lemma get_dirs_RI m : forall st h s T d, RI st h s -> d * m <= h ->
  exists T' s', get_dirs cap s T (S d * m) (S d) m = Some (T', s', 0) /\ RI st (h - d * m) s' /\
    (forall j i, j < m -> i < d -> T' (j * S d + S i) = nth (h - d * m + (j * d + i)) st (T (j * S d + S i))) /\
    (forall i, m * S d <= i -> T' i = T i).
Proof.
  induction m as [|m IH]; intros st h s T d H L; cbn [get_dirs].
  - exists T, s. rewrite !Nat.mul_0_r. cbn. rewrite Nat.sub_0_r. split; [auto|]. split; [auto|]. split; [intros; lia|auto].
  - replace (S d - 1) with d by lia.
    destruct (@get_dir_RI d _ _ _ T (S d * S m) H) as (T1 & s1 & A & B & C); [nia|nia|].
    rewrite A. replace (S d * S m - d - 1) with (S d * m) by nia.
    destruct (IH _ _ _ T1 d B) as (T2 & s2 & D & E & F & G); [nia|].
    exists T2, s2. split; [exact D|]. replace (h - d * S m) with (h - d - d * m) by nia. split; [exact E|].
    split.
    + intros j i Hj Hi. destruct (Nat.eq_dec j m) as [->|N].
      * rewrite G by nia. rewrite C.
        destruct (Nat.leb_spec (S d * S m - d) (m * S d + S i)), (Nat.ltb_spec (m * S d + S i) (S d * S m));
          cbn [andb]; try nia. f_equal. nia.
      * rewrite F by lia.
        assert (Q : h - d - d * m + (j * d + i) < length st) by (destruct H; nia).
        apply nth_indep. exact Q.
    + intros i Hi. rewrite G by nia. rewrite C.
      destruct (Nat.leb_spec (S d * S m - d) i), (Nat.ltb_spec i (S d * S m)); cbn [andb]; auto; nia.
Qed.

Lemma spread_spec m : forall (T : nat -> V) t d v,
  (forall j, j < m -> spread T t (S d) m v (t + j * S d) = v) /\
  (forall i, (forall j, j < m -> i <> t + j * S d) -> spread T t (S d) m v i = T i).
Proof.
  induction m as [|m IH]; intros T t d v; cbn [spread].
  - split; [intros; lia|auto].
  - destruct (IH (set T t v) (t + S d) d v) as [A B]. split.
    + intros [|j] Hj.
      * cbn. rewrite Nat.add_0_r. rewrite B; [apply set_eq|]. intros j' _. pose proof (Nat.le_0_l (j' * S d)). lia.
      * replace (t + S j * S d) with (t + S d + j * S d) by (cbn; lia). apply A. lia.
    + intros i Hi. rewrite B.
      * apply set_neq. pose proof (Hi 0 ltac:(lia)). lia.
      * intros j Hj. pose proof (Hi (S j) ltac:(lia)) as Q. cbn in Q. lia.
Qed.

(** splitting a stack segment into [m] pieces of length [d] *)
Fixpoint pieces (l : list V) (d m : nat) : list (list V) :=
  match m with O => [] | S m' => firstn d l :: pieces (skipn d l) d m' end.
Lemma pieces_spec m : forall l d, length l = d * m ->
  concat (pieces l d m) = l /\ length (pieces l d m) = m /\
  (forall x, In x (pieces l d m) -> length x = d) /\
  (forall j, j < m -> nth_error (pieces l d m) j = Some (firstn d (skipn (j * d) l))).
Proof.
  induction m as [|m IH]; intros l d L; cbn [pieces concat].
  - rewrite Nat.mul_0_r in L. destruct l; [|discriminate]. cbn. repeat split; try tauto. intros; lia.
  - destruct (IH (skipn d l) d) as (A & B & C & D).
    { rewrite skipn_length. nia. }
    split; [rewrite A; apply firstn_skipn|]. split; [cbn; lia|]. split.
    + intros x [<-|Hx]; auto. rewrite firstn_length. nia.
    + intros [|j] Hj; cbn [nth_error]; auto. rewrite D by lia. do 2 f_equal.
      cbn. clear.
      assert (Z : forall b c (l : list V), skipn b (skipn c l) = skipn (c + b) l).
      { intros b c. induction c; intros [|x l']; cbn; auto. now destruct b. }
      apply Z.
Qed.

Lemma rd_RI r st h s : RI st h s -> takes r <= h ->
  (match r with RS => True
   | RT _ d => d <= h mod cap \/ (h mod cap = 0 /\ d <= cap)
   | RTp _ d _ => 1 <= d end) ->
  exists x s', do_rd cap s r = Some (x, s') /\ RI st (h - takes r) s' /\
    popped (firstn h st) r x (firstn (h - takes r) st).
Proof.
  intros H L F. pose proof (ri_h H) as Hh. destruct r as [|T d|T d n]; cbn [do_rd takes] in *.
  - destruct (get_RI H) as (v & s1 & A & B & C); [lia|]. rewrite A.
    exists (Val v), s1. split; [auto|]. split; [auto|].
    replace h with (S (h - 1)) at 1 by lia. rewrite (firstn_S_last _ _ C). constructor.
  - destruct (get_taylors_RI T H L F) as (T' & s1 & A & B & C). rewrite A.
    exists (Arr T'), s1. split; [auto|]. split; [auto|].
    replace h with (h - d + d) at 1 by lia. rewrite sub_list by lia.
    assert (Ld : length (firstn d (skipn (h - d) st)) = d).
    { rewrite firstn_length, skipn_length. lia. }
    set (l := firstn d (skipn (h - d) st)) in *.
    replace (RT T d) with (RT T (length l)) by (now rewrite Ld). constructor. rewrite Ld. intros i. rewrite C.
    unfold l.
    destruct (Nat.ltb_spec i d); auto. now rewrite nth_firstn_skipn.
  - destruct d as [|d]; [lia|]. replace (S d - 1) with d in * by lia.
    destruct (@get_dirs_RI n _ _ _ T d H) as (T1 & s1 & A & B & C & D); [lia|].
    unfold get_taylors_p. rewrite A.
    destruct (get_RI B) as (v & s2 & A2 & B2 & C2); [lia|]. rewrite A2.
    destruct (spread_spec n T1 0 d v) as [S1 S2].
    eexists _, s2. split; [reflexivity|]. replace (h - (d * n + 1)) with (h - d * n - 1) by lia.
    split; [exact B2|].
    set (l := firstn (d * n) (skipn (h - d * n) st)).
    assert (Ll : length l = d * n) by (unfold l; rewrite firstn_length, skipn_length; lia).
    destruct (pieces_spec n l d Ll) as (P1 & P2 & P3 & P4).
    assert (Est : firstn h st = firstn (h - d * n - 1) st ++ [v] ++ concat (pieces l d n)).
    { replace h with (h - d * n + d * n) at 1 by lia. rewrite sub_list by lia.
      replace (h - d * n) with (S (h - d * n - 1)) at 1 by lia.
      rewrite (firstn_S_last _ _ C2), <- app_assoc, P1. reflexivity. }
    rewrite Est. replace (RTp T (S d) n) with (RTp T (S d) (length (pieces l d n))) by (now rewrite P2).
    constructor; auto; rewrite ?P2.
    + intros j Hj. apply (S1 j Hj).
    + intros j i x Hx Hi.
      assert (Hj : j < n). { rewrite <- P2. apply nth_error_Some. congruence. }
      rewrite P4 in Hx by auto. inversion Hx; subst x.
      rewrite S2.
      2:{ intros j' _ E. cbn [plus] in E.
          assert (Z : (j * S d + S i) mod S d = (j' * S d) mod S d) by congruence.
          rewrite Nat.add_comm, Nat.mod_add, Nat.mod_mul, Nat.mod_small in Z by lia. lia. }
      rewrite C by auto. rewrite nth_firstn_skipn by auto. unfold l.
      rewrite nth_firstn_skipn by nia. apply nth_indep. nia.
    + intros i Hi. rewrite S2.
      * apply D. lia.
      * intros j Hj E. cbn [plus] in E. nia.
Qed.

Lemma rds_RI rs : forall st h s, RI st h s -> fits cap h rs ->
  exists xs s', do_rds cap s rs = Some (xs, s') /\ CI st s' /\ sweep_spec (firstn h st) rs xs.
Proof.
  induction rs as [|r rs IH]; intros st h s H F; cbn [do_rds].
  - exists [], s. split; [auto|]. split; [apply H|constructor].
  - destruct F as (F1 & F2 & F3). destruct (rd_RI r H F1 F2) as (x & s1 & A & B & C). rewrite A.
    destruct (IH _ _ _ B F3) as (xs & s2 & D & E & G). rewrite D.
    exists (x :: xs), s2. split; [auto|]. split; [auto|]. econstructor; eauto.
Qed.

Lemma sweeps_CI hs : forall st s, CI st s -> (forall rs, In rs hs -> fits cap (length st) rs) ->
  exists r, do_sweeps cap s hs = Some r /\ Forall2 (sweep_spec st) hs r.
Proof.
  induction hs as [|rs hs IH]; intros st s H F; cbn [do_sweeps].
  - exists []. auto.
  - destruct (back_RI H) as (s1 & A & B). rewrite A.
    destruct (rds_RI rs B) as (xs & s2 & C & D & E); [apply F; now left|]. rewrite C.
    destruct (IH _ _ D) as (r & G & K); [intros; apply F; now right|]. rewrite G.
    exists (xs :: r). split; auto. constructor; auto. now rewrite firstn_all in E.
Qed.
End Proofs.
