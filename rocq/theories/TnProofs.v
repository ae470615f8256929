From Coq Require Import List Arith Bool Lia.
From Verif Require Import TnModel TnSpec.
Import ListNotations.

(** ** Binomial coefficients *)
Lemma C_0 : forall n, C n 0 = 1. Proof. destruct n; reflexivity. Qed.
Lemma C_over : forall n k, n < k -> C n k = 0.
Proof.
  induction n; destruct k; intros; try lia; cbn [C]; [reflexivity|].
  rewrite !IHn by lia. reflexivity.
Qed.
Lemma C_diag : forall n, C n n = 1.
Proof. induction n; cbn [C]; [reflexivity|]. rewrite IHn, C_over; lia. Qed.
Lemma C_S : forall n k, C (S n) (S k) = C n k + C n (S k).
Proof. reflexivity. Qed.
Lemma C_absorb : forall n k, S k * C (S n) (S k) = S n * C n k.
Proof.
  induction n; intros k.
  - destruct k; cbn [C]; [lia|]. destruct k; cbn [C]; lia.
  - destruct k.
    + rewrite C_S, !C_0. specialize (IHn 0). rewrite C_0 in IHn. lia.
    + rewrite C_S. specialize (IHn (S k)) as H1. specialize (IHn k) as H2.
      rewrite (C_S n k) in *.
      remember (C (S n) (S (S k))) as A. remember (C n k) as B. remember (C n (S k)) as D.
      nia.
Qed.
Lemma C_sym : forall n k, k <= n -> C n (n - k) = C n k.
Proof.
  induction n; intros k H.
  - replace k with 0 by lia. reflexivity.
  - destruct k.
    + rewrite Nat.sub_0_r, C_diag, C_0. reflexivity.
    + destruct (Nat.eq_dec k n) as [->|].
      * rewrite Nat.sub_diag, C_0, C_diag. reflexivity.
      * replace (S n - S k) with (S (n - S k)) by lia. rewrite !C_S.
        replace (S (n - S k)) with (n - k) by lia.
        rewrite (IHn k) by lia. rewrite (IHn (S k)) by lia. lia.
Qed.
(* C(n+1,k+1) via the upper neighbour *)
Lemma C_step : forall m i, S i * C (m + S i) (S i) = (m + S i) * C (m + i) i.
Proof. intros. replace (m + S i) with (S (m + i)) by lia. apply C_absorb. Qed.

Lemma binomi_loop : forall m k,
  fold_left (fun accum i => accum * (m + i) / i) (seq 1 k) 1 = C (m + k) k.
Proof.
  intros m. induction k.
  - cbn. rewrite C_0. reflexivity.
  - rewrite seq_S, fold_left_app. cbn [fold_left]. rewrite IHk.
    replace (1 + k) with (S k) by lia.
    rewrite (Nat.mul_comm (C (m + k) k)), <- C_step, Nat.mul_comm.
    apply Nat.div_mul. lia.
Qed.
Lemma binomi_C : forall n k, binomi n k = C n k.
Proof.
  intros n k. unfold binomi.
  destruct (n <? k) eqn:E. { apply Nat.ltb_lt in E. now rewrite C_over. }
  apply Nat.ltb_ge in E.
  destruct (n / 2 <? k).
  - rewrite binomi_loop. replace (n - (n - k) + (n - k)) with n by lia. now apply C_sym.
  - rewrite binomi_loop. f_equal. lia.
Qed.

(** ** The address *)
(* the position of j, read from the last (smallest) entry *)
Fixpoint rank (j : list nat) : nat :=
  match j with [] => 0 | v :: r => C (v + length r) (S (length r)) + rank r end.

Lemma rank_bound : forall p d j, derivative p d j -> rank j < C (p + d) d.
Proof.
  intros p d j (L & N & B). revert p d L N B.
  induction j as [|v r IH]; intros p d <- N B.
  - cbn. rewrite C_0. lia.
  - cbn [rank length]. inversion B; subst.
    assert (rank r < C (v + length r) (length r)).
    { apply IH; [reflexivity| |].
      - destruct r; [exact I|]. apply N.
      - clear - N. revert v N. induction r as [|w r IH]; intros; constructor.
        + apply N.
        + cbn in N. apply IH. destruct r; [exact I|]. cbn. destruct N as [? [? ?]]. split; [lia|assumption]. }
    assert (forall q, C (v + S (length r)) (S (length r)) <= C (q + v + S (length r)) (S (length r))) as M.
    { clear. intros q. induction q; [cbn [Nat.add]; lia|].
      replace (S q + v + S (length r)) with (S (q + v + S (length r))) by lia.
      rewrite C_S. lia. }
    specialize (M (p - v)). replace (p - v + v + S (length r)) with (p + S (length r)) in M by lia.
    replace (v + S (length r)) with (S (v + length r)) in M by lia. rewrite C_S in M. lia.
Qed.

Lemma derivative_cons : forall p d v r,
  derivative p (S d) (v :: r) <-> v <= p /\ derivative v d r.
Proof.
  intros. unfold derivative. cbn [length]. split.
  - intros (L & N & B). inversion B; subst. split; [assumption|]. split; [lia|].
    split. { destruct r; [exact I|apply N]. }
    clear - N. revert v N. induction r as [|w r IH]; intros; constructor.
    + apply N.
    + apply IH. destruct r; [exact I|]. cbn in N |- *. destruct N as [? [? ?]]. split; [lia|assumption].
  - intros (V & L & N & B). split; [lia|]. split.
    + destruct r; [exact I|]. inversion B; subst. split; assumption.
    + constructor; [assumption|]. eapply List.Forall_impl; [|exact B]. cbn. intros. lia.
Qed.

Lemma C_mono : forall k q n, C n k <= C (q + n) k.
Proof.
  intros k q n. induction q; [cbn; lia|]. destruct k.
  - rewrite !C_0. lia.
  - cbn [Nat.add]. rewrite C_S. lia.
Qed.
Lemma C_mono' : forall k n n', n <= n' -> C n k <= C n' k.
Proof. intros. replace n' with ((n' - n) + n) by lia. apply C_mono. Qed.

Lemma rank_inj : forall p d j j',
  derivative p d j -> derivative p d j' -> rank j = rank j' -> j = j'.
Proof.
  intros p d j. revert p d. induction j as [|v r IH]; intros p d [|w r'] H H' E.
  - reflexivity.
  - destruct H as [L _], H' as [L' _]. cbn in *. lia.
  - destruct H as [L _], H' as [L' _]. cbn in *. lia.
  - destruct d; [destruct H as [L _]; discriminate L|].
    apply derivative_cons in H, H'. destruct H as [V D], H' as [V' D'].
    assert (length r = d /\ length r' = d) as [L L'] by (split; [apply D|apply D']).
    cbn [rank] in E. rewrite L, L' in E.
    pose proof (rank_bound _ _ _ D) as B. pose proof (rank_bound _ _ _ D') as B'.
    assert (v = w) as ->.
    { destruct (Nat.lt_trichotomy v w) as [G|[G|G]]; [exfalso|assumption|exfalso].
      - pose proof (C_mono' (S d) (S (v + d)) (w + d) ltac:(lia)) as M.
        rewrite C_S in M. lia.
      - pose proof (C_mono' (S d) (S (w + d)) (v + d) ltac:(lia)) as M.
        rewrite C_S in M. lia. }
    f_equal. apply (IH w d); try assumption. lia.
Qed.

Lemma derivative_zeros : forall p d, derivative p d (repeat 0 d).
Proof.
  intros p d. revert p. induction d; intros p.
  - repeat split. constructor.
  - cbn [repeat]. apply derivative_cons. split; [lia|apply IHd].
Qed.
Lemma derivative_weaken : forall p q d j, p <= q -> derivative p d j -> derivative q d j.
Proof.
  intros p q d j H (L & N & B). repeat split; try assumption.
  eapply List.Forall_impl; [|exact B]. cbn. intros. lia.
Qed.
Lemma rank_surj : forall d p N, N < C (p + d) d -> exists j, derivative p d j /\ rank j = N.
Proof.
  induction d; intros p N H.
  - exists []. split; [repeat split; constructor|]. rewrite C_0 in H. cbn. lia.
  - induction p.
    + exists (repeat 0 (S d)). split; [apply derivative_zeros|].
      cbn [Nat.add] in H. rewrite C_diag in H.
      assert (forall n, rank (repeat 0 n) = 0) as Z.
      { clear. induction n; [reflexivity|]. cbn [repeat rank]. rewrite IHn, repeat_length.
        rewrite C_over by lia. reflexivity. }
      rewrite Z. lia.
    + destruct (Nat.lt_ge_cases N (C (p + S d) (S d))) as [G|G].
      * destruct (IHp G) as (j & D & E). exists j. split; [|exact E].
        apply (derivative_weaken p); [lia|exact D].
      * replace (S p + S d) with (S (p + S d)) in H by lia. rewrite C_S in H.
        destruct (IHd (S p) (N - C (p + S d) (S d))) as (j & D & E).
        { replace (S p + d) with (p + S d) by lia. lia. }
        exists (S p :: j). split.
        -- apply derivative_cons. split; [lia|assumption].
        -- cbn [rank]. destruct D as [-> _]. replace (S p + d) with (p + S d) by lia. lia.
Qed.

(** ** The loop of tensor_address on a non-increasing index *)
Lemma largest_spec : forall d my v, (forall j, j < d -> my j <= v) ->
  (v = 0 \/ exists j, j < d /\ my j = v) -> largest d my = v.
Proof.
  intros d my v H E.
  assert (forall l m, (forall j, In j l -> my j <= v) -> m <= v ->
    (m = v \/ v = 0 \/ exists j, In j l /\ my j = v) ->
    fold_left (fun mx j => if mx <? my j then my j else mx) l m = v) as G.
  { clear. induction l; intros m B M X; cbn [fold_left].
    - destruct X as [|[|(j & [] & _)]]; lia.
    - apply IHl.
      + intros. apply B. now right.
      + destruct (m <? my a); [apply B; now left|assumption].
      + specialize (B a (or_introl eq_refl)).
        destruct X as [->|[->|(j & [->|I] & V)]].
        * left. destruct (v <? my a) eqn:Q; [apply Nat.ltb_lt in Q; lia|reflexivity].
        * right; left; reflexivity.
        * left. rewrite V. destruct (m <? v) eqn:Q; [reflexivity|apply Nat.ltb_ge in Q; lia].
        * right; right. exists j. tauto. }
  apply G.
  - intros j I. apply in_seq in I. apply H. lia.
  - lia.
  - destruct E as [|(j & J & V)]; [tauto|]. right; right. exists j. split; [apply in_seq; lia|assumption].
Qed.

Lemma nonincreasing_nth : forall j a b, nonincreasing j -> a <= b -> b < length j ->
  nth b j 0 <= nth a j 0.
Proof.
  induction j as [|v r IH]; intros a b N L B; cbn in B; [lia|].
  assert (nonincreasing r) as Nr by (destruct r; [exact I|apply N]).
  destruct b.
  - replace a with 0 by lia. lia.
  - destruct a.
    + cbn [nth]. transitivity (nth 0 r 0).
      * apply IH; [assumption|lia|lia].
      * destruct r; cbn [length] in *; [lia|]. apply N.
    + cbn [nth]. apply IH; [assumption|lia|lia].
Qed.

Definition picked (d k : nat) (j : list nat)
           (s : (nat -> nat) * nat * nat * (nat -> nat)) : Prop :=
  let '(my, mx, room, im) := s in
  (forall i, my i = if i <? k then 0 else nth i j 0) /\
  mx = nth k j 0 /\ room = d - k /\
  (forall i, im i = if (d - k <=? i) && (i <? d) then nth (d - 1 - i) j 0 else 0).

Lemma picked_step : forall d k j s, length j = d -> nonincreasing j -> k < d ->
  picked d k j s -> picked d (S k) j (pick d s k).
Proof.
  intros d k j [[[my mx] room] im] L N K (Y & -> & -> & M).
  unfold pick. rewrite Y. rewrite Nat.ltb_irrefl. rewrite Nat.eqb_refl.
  assert (forall i, put my k 0 i = if i <? S k then 0 else nth i j 0) as P.
  { intros i. unfold put. destruct (Nat.eqb_spec i k) as [->|].
    - destruct (Nat.ltb_spec k (S k)); [reflexivity|lia].
    - rewrite Y. destruct (Nat.ltb_spec i k), (Nat.ltb_spec i (S k)); try lia; reflexivity. }
  split; [exact P|]. split; [|split].
  - apply largest_spec.
    + intros i I. rewrite P. destruct (Nat.ltb_spec i (S k)); [lia|].
      apply nonincreasing_nth; [assumption|lia|lia].
    + destruct (Nat.lt_ge_cases (S k) d).
      * right. exists (S k). split; [assumption|]. rewrite P.
        now rewrite Nat.ltb_irrefl.
      * left. apply nth_overflow. lia.
  - lia.
  - intros i. unfold put. destruct (Nat.eqb_spec i (d - k - 1)) as [->|].
    + destruct (Nat.leb_spec (d - S k) (d - k - 1)), (Nat.ltb_spec (d - k - 1) d); try lia.
      cbn [andb]. f_equal. lia.
    + rewrite M. destruct (Nat.leb_spec (d - k) i), (Nat.leb_spec (d - S k) i), (Nat.ltb_spec i d);
        try lia; reflexivity.
Qed.

Lemma sorted_multi_rev : forall d j, length j = d -> nonincreasing j ->
  forall i, i < d -> sorted_multi d (array j) i = nth (d - 1 - i) j 0.
Proof.
  intros d j L N.
  assert (forall k, k <= d ->
    picked d k j (fold_left (pick d) (seq 0 k) (array j, largest d (array j), d, fun _ => 0))) as G.
  { induction k; intros K.
    - cbn [seq fold_left]. repeat split.
      + apply largest_spec.
        * intros i I. apply nonincreasing_nth; [assumption|lia|lia].
        * destruct d; [left|right; exists 0; split; [lia|reflexivity]].
          destruct j; [reflexivity|discriminate L].
      + lia.
      + intros i. destruct (Nat.leb_spec (d - 0) i), (Nat.ltb_spec i d); try lia; reflexivity.
    - rewrite seq_S, fold_left_app. cbn [fold_left Nat.add].
      apply picked_step; [assumption|assumption|lia|apply IHk; lia]. }
  intros i I. unfold sorted_multi. specialize (G d ltac:(lia)).
  destruct (fold_left (pick d) (seq 0 d) (array j, largest d (array j), d, fun _ => 0))
    as [[[my mx] room] im].
  destruct G as (_ & _ & _ & M). cbn [snd]. rewrite M.
  destruct (Nat.leb_spec (d - d) i), (Nat.ltb_spec i d); try lia. reflexivity.
Qed.

Lemma fold_add : forall (f : nat -> nat) l a,
  fold_left (fun s i => s + f i) l a = a + list_sum (map f l).
Proof.
  intros f. induction l; intros; cbn [fold_left map list_sum fold_right]; [lia|].
  rewrite IHl. unfold list_sum. lia.
Qed.
Lemma list_sum_snoc : forall l a, list_sum (l ++ [a]) = list_sum l + a.
Proof. intros. rewrite list_sum_app. cbn. lia. Qed.
Lemma list_sum_ext : forall (f g : nat -> nat) l, (forall i, In i l -> f i = g i) ->
  list_sum (map f l) = list_sum (map g l).
Proof. intros. f_equal. now apply map_ext_in. Qed.

Lemma rank_sum : forall j,
  rank j = list_sum (map (fun i => C (nth (length j - 1 - i) j 0 + i) (S i)) (seq 0 (length j))).
Proof.
  induction j as [|v r IH]; [reflexivity|].
  cbn [length]. rewrite seq_S, map_app, list_sum_app. cbn [map Nat.add].
  cbn [rank]. rewrite IH. replace (S (length r) - 1 - length r) with 0 by lia. cbn [nth].
  replace (list_sum [C (v + length r) (S (length r))]) with (C (v + length r) (S (length r)))
    by (unfold list_sum; cbn; lia).
  rewrite Nat.add_comm. f_equal. apply list_sum_ext. intros i I. apply in_seq in I.
  replace (S (length r) - 1 - i) with (S (length r - 1 - i)) by lia. reflexivity.
Qed.

Lemma address_rank : forall d j, length j = d -> nonincreasing j ->
  tensor_address d (array j) = rank j.
Proof.
  intros d j L N. unfold tensor_address.
  rewrite (fold_add (fun i => binomi (sorted_multi d (array j) i + i) (i + 1))).
  rewrite rank_sum, L. cbn [Nat.add]. apply list_sum_ext. intros i I. apply in_seq in I.
  rewrite binomi_C, (sorted_multi_rev d j L N i) by lia. f_equal. lia.
Qed.

(** ** The pointer structure *)
(* size of one level *)
Lemma C_hockey : forall d n, list_sum (map (fun i => C (i + d) d) (seq 0 (S n))) = C (n + S d) (S d).
Proof.
  intros d n. induction n.
  - cbn [seq map Nat.add]. rewrite !C_diag. reflexivity.
  - rewrite seq_S, map_app, list_sum_app, IHn. cbn [map Nat.add].
    replace (S (n + S d)) with (S (n + S d)) by lia. rewrite C_S.
    replace (S (n + d)) with (n + S d) by lia. unfold list_sum; cbn; lia.
Qed.

Definition level (d' : nat) :=
  (fun (s : list ptr * nat * nat) i =>
     let '(es, g, nx) := s in
     let '(t, g', nx') := tensorpoint d' i g nx in
     (es ++ [t], g', nx')).

Lemma tensorpoint_SS : forall d n glob next,
  tensorpoint (S (S d)) n glob next =
  let '(es, g, nx) := fold_left (level (S d)) (seq 0 (n + 1)) ([], glob, S next) in
  (Ptrs next es, g, nx).
Proof. reflexivity. Qed.

Lemma tensorpoint_ok : forall d n glob next,
  let '(t, g, nx) := tensorpoint (S d) n glob next in
  g = glob + C (n + S d) (S d) /\
  forall j, derivative n (S d) j -> deref t j = Some (glob + rank j).
Proof.
  induction d; intros n glob next.
  - cbn [tensorpoint]. split.
    + assert (forall m, C m 1 = m) as E by (clear; induction m; [reflexivity|]; rewrite C_S, C_0; lia).
      rewrite E. reflexivity.
    + intros [|v [|? ?]] (L & _); try discriminate L. cbn [deref rank length].
      f_equal. f_equal. rewrite Nat.add_0_r.
      assert (forall m, C m 1 = m) as E by (clear; induction m; [reflexivity|]; rewrite C_S, C_0; lia).
      rewrite E. lia.
  - rewrite tensorpoint_SS.
    assert (forall k,
      let '(es, g, nx) := fold_left (level (S d)) (seq 0 k) ([], glob, S next) in
      length es = k /\
      g = glob + list_sum (map (fun i => C (i + S d) (S d)) (seq 0 k)) /\
      forall v r, v < k -> derivative v (S d) r ->
        exists t, nth_error es v = Some t /\
          deref t r = Some (glob + list_sum (map (fun i => C (i + S d) (S d)) (seq 0 v)) + rank r)) as G.
    { induction k.
      - cbn [seq fold_left map]. repeat split. { cbn. lia. } intros. lia.
      - rewrite seq_S, fold_left_app. cbn [fold_left Nat.add].
        destruct (fold_left (level (S d)) (seq 0 k) ([], glob, S next)) as [[es g] nx].
        destruct IHk as (L & E & D). unfold level. specialize (IHd k g nx).
        destruct (tensorpoint (S d) k g nx) as [[t g'] nx']. destruct IHd as (E' & D').
        repeat split.
        + rewrite app_length. cbn. lia.
        + rewrite map_app, list_sum_app. cbn [map]. unfold list_sum at 2. cbn [fold_right]. lia.
        + intros v r V R. destruct (Nat.eq_dec v k) as [->|].
          * exists t. split.
            -- rewrite nth_error_app2 by lia. rewrite L, Nat.sub_diag. reflexivity.
            -- rewrite (D' _ R), E. reflexivity.
          * destruct (D v r ltac:(lia) R) as (t0 & E0 & R0). exists t0. split; [|exact R0].
            rewrite nth_error_app1 by lia. exact E0. }
    specialize (G (n + 1)).
    destruct (fold_left (level (S d)) (seq 0 (n + 1)) ([], glob, S next)) as [[es g] nx].
    destruct G as (L & E & D). split.
    + rewrite E. f_equal. replace (n + 1) with (S n) by lia. apply C_hockey.
    + intros [|v r] J; [destruct J as [J _]; discriminate J|].
      pose proof J as J0. apply derivative_cons in J. destruct J as [V R].
      destruct (D v r ltac:(lia) R) as (t & E0 & R0). cbn [deref]. rewrite E0, R0.
      f_equal. cbn [rank]. destruct R as [-> _]. rewrite <- Nat.add_assoc. f_equal. f_equal.
      destruct v.
      * cbn [seq map]. rewrite C_over by lia. reflexivity.
      * rewrite C_hockey. f_equal. lia.
Qed.

(* the blocks of a pointer structure *)
Fixpoint blocks_of (t : ptr) : list nat :=
  match t with Cells _ => [] | Ptrs b es => b :: flat_map blocks_of es end.
(* a structure of depth d *)
Fixpoint deep (d : nat) (t : ptr) : Prop :=
  match d, t with
  | 1, Cells _ => True
  | S ((S _) as d'), Ptrs _ es => List.Forall (deep d') es
  | _, _ => False
  end.

Lemma tensorpoint_blocks : forall d n glob next,
  let '(t, g, nx) := tensorpoint (S d) n glob next in
  deep (S d) t /\ next <= nx /\ NoDup (blocks_of t) /\
  forall b, In b (blocks_of t) <-> next <= b < nx.
Proof.
  induction d; intros n glob next.
  - cbn [tensorpoint]. repeat split; try constructor; cbn in *; try tauto; lia.
  - rewrite tensorpoint_SS.
    assert (forall k,
      let '(es, g, nx) := fold_left (level (S d)) (seq 0 k) ([], glob, S next) in
      List.Forall (deep (S d)) es /\ S next <= nx /\ NoDup (flat_map blocks_of es) /\
      forall b, In b (flat_map blocks_of es) <-> S next <= b < nx) as G.
    { induction k.
      - cbn [seq fold_left flat_map]. repeat split; try constructor; cbn in *; try tauto; lia.
      - rewrite seq_S, fold_left_app. cbn [fold_left Nat.add].
        destruct (fold_left (level (S d)) (seq 0 k) ([], glob, S next)) as [[es g] nx].
        destruct IHk as (F & L & U & I). unfold level. specialize (IHd k g nx).
        destruct (tensorpoint (S d) k g nx) as [[t g'] nx']. destruct IHd as (F' & L' & U' & I').
        rewrite flat_map_app. cbn [flat_map]. rewrite app_nil_r. split; [|split; [lia|split]].
        + apply List.Forall_app. repeat constructor; assumption.
        + clear - U U' I I'. induction (flat_map blocks_of es) as [|a l IH] in nx, U, I, I' |- *.
          * exact U'.
          * cbn [app]. inversion U; subst.
            assert (~ In a (blocks_of t)) as X.
            { intro Q. apply I' in Q. assert (In a (a :: l)) as Z by now left. apply I in Z. lia. }
            constructor. { rewrite in_app_iff. tauto. }
            assert (forall l1 l2 : list nat, NoDup l1 -> NoDup l2 -> (forall b, In b l1 -> ~ In b l2) -> NoDup (l1 ++ l2)) as ND.
            { clear. induction l1; intros l2 A B D; [exact B|]. inversion A; subst. cbn. constructor.
              - rewrite in_app_iff. intros [|Q]; [tauto|]. apply (D a); [now left|assumption].
              - apply IHl1; try assumption. intros b Q. apply D. now right. }
            apply ND; try assumption. intros b Q Q'. apply I' in Q'.
            assert (In b (a :: l)) as Z by now right. apply I in Z. lia.
        + intros b. rewrite in_app_iff, I, I'. lia. }
    specialize (G (n + 1)).
    destruct (fold_left (level (S d)) (seq 0 (n + 1)) ([], glob, S next)) as [[es g] nx].
    destruct G as (F & L & U & I). split; [exact F|]. cbn [blocks_of]. split; [lia|]. split.
    + constructor; [|exact U]. intro Q. apply I in Q. lia.
    + intros b. cbn [In]. rewrite I. lia.
Qed.

From Coq Require Import Permutation.
Lemma freetensor_ok : forall d t, deep (S (S d)) t ->
  Permutation (freetensor (S (S d)) t) (map Some (blocks_of t)).
Proof.
  induction d; intros t D.
  - destruct t as [|b es]; [contradiction D|]. cbn [freetensor freetensorpoint app release blocks_of map].
    assert (flat_map blocks_of es = []) as ->; [|reflexivity].
    change (List.Forall (deep 1) es) in D.
    clear b. induction D as [|[|] es Q]; [reflexivity|cbn; assumption|contradiction Q].
  - destruct t as [|b es]; [contradiction D|].
    unfold freetensor. cbn [release blocks_of map].
    rewrite <- Permutation_cons_append. apply perm_skip.
    change (freetensorpoint (S (S (S d))) (Ptrs b es))
      with (flat_map (fun t' => freetensor (S (S d)) t') es).
    change (List.Forall (deep (S (S d))) es) in D.
    clear b. induction D as [|t es Q D IH]; [reflexivity|].
    cbn [flat_map]. rewrite map_app. apply Permutation_app; [now apply IHd|exact IH].
Qed.
