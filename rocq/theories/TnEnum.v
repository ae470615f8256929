(** The address used by coeff, and the enumeration of the directions in coeff and
    tensor_eval. *)
From Coq Require Import List Arith Bool Lia.
From Verif Require Import TnModel TnSpec TnProofs.
Import ListNotations.

Definition count (j : list nat) (v : nat) : nat := count_occ Nat.eq_dec j v.

(** ** coeff's address *)
Fixpoint rkf (pos : nat) (l : list nat) : nat :=
  match l with [] => 0 | v :: r => C (v + pos) (S pos) + rkf (S pos) r end.
Lemma rkf_app : forall l m pos, rkf pos (l ++ m) = rkf pos l + rkf (pos + length l) m.
Proof.
  induction l; intros m pos; cbn [app rkf length].
  - now rewrite Nat.add_0_r.
  - rewrite IHl. replace (S pos + length l) with (pos + S (length l)) by lia. lia.
Qed.
Lemma rank_rkf : forall j, rank j = rkf 0 (rev j).
Proof.
  induction j as [|v r IH]; [reflexivity|]. cbn [rank rev]. rewrite rkf_app, rev_length.
  cbn [rkf Nat.add]. lia.
Qed.
Lemma rkf_zeros : forall n pos, rkf pos (repeat 0 n) = 0.
Proof. induction n; intros; cbn [repeat rkf]; [reflexivity|]. rewrite IHn, C_over; lia. Qed.
Lemma rkf_repeat : forall n u pos,
  S u * rkf pos (repeat (S u) n) + S pos * C (u + S pos) (S pos) =
  (S pos + n) * C (u + S pos + n) (S pos + n).
Proof.
  induction n; intros u pos.
  - cbn [repeat rkf]. rewrite !Nat.add_0_r. lia.
  - cbn [repeat rkf]. specialize (IHn u (S pos)).
    replace (S u + pos) with (u + S pos) by lia.
    replace (S pos + S n) with (S (S pos) + n) by lia.
    replace (u + S pos + S n) with (u + S (S pos) + n) by lia.
    rewrite <- IHn.
    pose proof (C_absorb (u + S pos) (S pos)) as A.
    replace (u + S (S pos)) with (S (u + S pos)) by lia. rewrite A. nia.
Qed.

Lemma flat_map_nil : forall (f : nat -> list nat) l, (forall v, In v l -> f v = []) -> flat_map f l = [].
Proof.
  induction l; intros H; [reflexivity|]. cbn. rewrite H, IHl; [reflexivity| |now left].
  intros. apply H. now right.
Qed.
Lemma flat_map_ext_in : forall (f g : nat -> list nat) l, (forall v, In v l -> f v = g v) ->
  flat_map f l = flat_map g l.
Proof.
  induction l; intros H; [reflexivity|]. cbn. rewrite H, IHl; [reflexivity| |now left].
  intros. apply H. now right.
Qed.
Lemma count_cons : forall v w r, count (v :: r) w = if v =? w then S (count r w) else count r w.
Proof.
  intros. unfold count. cbn [count_occ]. destruct (Nat.eq_dec v w), (Nat.eqb_spec v w); congruence.
Qed.
Lemma count_above : forall r p w, List.Forall (fun v => v <= p) r -> p < w -> count r w = 0.
Proof.
  induction 1; intros; [reflexivity|]. rewrite count_cons.
  destruct (Nat.eqb_spec x w); [lia|]. auto.
Qed.
Lemma repeat_snoc : forall (v n : nat), repeat v (S n) = repeat v n ++ [v].
Proof. intros. apply repeat_cons. Qed.

Lemma rev_counts : forall d p j, derivative p d j ->
  rev j = flat_map (fun v => repeat v (count j v)) (seq 0 (S p)).
Proof.
  intros d p j. revert d p. induction j as [|v r IH]; intros d p H.
  - cbn [rev]. symmetry. apply flat_map_nil. reflexivity.
  - destruct d; [destruct H as [L _]; discriminate L|].
    pose proof H as (_ & _ & B).
    apply derivative_cons in H. destruct H as [V D].
    cbn [rev]. rewrite (IH d v D).
    replace (S p) with (S v + (p - v)) by lia.
    rewrite seq_app, flat_map_app. rewrite seq_S, !flat_map_app. cbn [flat_map Nat.add].
    rewrite !app_nil_r.
    rewrite (flat_map_nil _ (seq (S v) (p - v))), app_nil_r.
    + rewrite (flat_map_ext_in (fun w => repeat w (count (v :: r) w)) (fun w => repeat w (count r w))).
      * rewrite count_cons, Nat.eqb_refl, repeat_snoc. now rewrite app_assoc.
      * intros w I. apply in_seq in I. rewrite count_cons.
        destruct (Nat.eqb_spec v w); [lia|reflexivity].
    + intros w I. apply in_seq in I. rewrite (count_above _ v); [reflexivity| |lia].
      constructor; [lia|]. apply D.
Qed.

Definition nonzero_entries (j : list nat) : nat := length j - count j 0.

Lemma length_flat_repeat : forall (c : nat -> nat) l,
  length (flat_map (fun v => repeat v (c v)) l) = list_sum (map c l).
Proof. induction l; [reflexivity|]. cbn. rewrite app_length, repeat_length. rewrite IHl. reflexivity. Qed.

Lemma count_le : forall j v, count j v <= length j.
Proof. induction j; intros; [cbn; lia|]. rewrite count_cons. specialize (IHj v). cbn. destruct (_ =? _); lia. Qed.

Lemma coeff_address_ok : forall p d j, derivative p d j ->
  coeff_address p d (nonzero_entries j) (fun u => count j (u + 1)) = rank j.
Proof.
  intros p d j D. rewrite rank_rkf, (rev_counts _ _ _ D).
  cbn [seq flat_map]. rewrite rkf_app, rkf_zeros, repeat_length. cbn [Nat.add].
  unfold coeff_address, nonzero_entries. destruct D as [L _]. rewrite L.
  pose proof (count_le j 0). replace (d - (d - count j 0) + 1) with (S (count j 0)) by lia.
  generalize (count j 0). intros pos. clear H L.
  (* the loop, started anywhere *)
  assert (forall q u add pos, fold_left
     (fun (s : nat * nat) u0 => let '(address, j0) := s in
        if count j (u0 + 1) =? 0 then (address, j0)
        else (address + ((j0 + count j (u0 + 1)) * binomi (u0 + j0 + count j (u0 + 1)) (j0 + count j (u0 + 1)) -
                 binomi (u0 + j0) j0 * j0) / (1 + (u0 + j0) - j0), j0 + count j (u0 + 1)))
     (seq u q) (add, S pos)
    = (add + rkf pos (flat_map (fun v => repeat v (count j v)) (seq (S u) q)),
       S pos + list_sum (map (count j) (seq (S u) q)))) as G.
  { induction q; intros u add ps; cbn [seq fold_left flat_map map].
    - cbn. f_equal; lia.
    - rewrite Nat.add_1_r. destruct (Nat.eqb_spec (count j (S u)) 0) as [E|E].
      + rewrite IHq. rewrite E. cbn [repeat app list_sum fold_right]. f_equal.
      + replace (S ps + count j (S u)) with (S (ps + count j (S u))) by lia.
        rewrite IHq. f_equal.
        * rewrite rkf_app, repeat_length. rewrite <- Nat.add_assoc. f_equal. f_equal.
          rewrite !binomi_C. replace (1 + (u + S ps) - S ps) with (S u) by lia.
          pose proof (rkf_repeat (count j (S u)) u ps) as R.
          replace (S (ps + count j (S u))) with (S ps + count j (S u)) by lia.
          rewrite <- R. rewrite (Nat.mul_comm (C (u + S ps) (S ps))).
          rewrite Nat.add_sub. rewrite Nat.mul_comm. apply Nat.div_mul. lia.
        * unfold list_sum. cbn [fold_right]. lia. }
  etransitivity; [apply f_equal; apply G|]. cbn [fst]. lia.
Qed.

(** ** Exponent vectors *)
(** all vectors of p nonnegative integers with sum d, in lexicographically decreasing
    order *)
Fixpoint vectors (p d : nat) : list (list nat) :=
  match p with
  | 0 => match d with 0 => [[]] | _ => [] end
  | S p' => flat_map (fun a => map (cons a) (vectors p' (d - a))) (rev (seq 0 (S d)))
  end.

Lemma vectors_in : forall p d v, In v (vectors p d) <-> length v = p /\ list_sum v = d.
Proof.
  induction p; intros d v.
  - cbn [vectors]. destruct d; cbn [In].
    + split.
      * intros [<-|[]]. split; reflexivity.
      * intros [L E]. destruct v; [now left|discriminate L].
    + split; [tauto|]. intros [L E]. destruct v; [discriminate E|discriminate L].
  - cbn [vectors]. rewrite in_flat_map. split.
    + intros (a & A & I). apply in_rev in A. apply in_seq in A. apply in_map_iff in I.
      destruct I as (w & <- & I). apply IHp in I. destruct I as [L E]. split; cbn; [lia|].
      change (list_sum (a :: w) = d). unfold list_sum in *. cbn. lia.
    + intros [L E]. destruct v as [|a w]; [discriminate L|].
      change (list_sum (a :: w)) with (a + list_sum w) in E. cbn in L.
      exists a. split.
      * apply -> in_rev. apply in_seq. lia.
      * apply in_map. apply IHp. split; lia.
Qed.
Lemma vectors_length : forall p d, length (vectors (S p) d) = C (p + d) d.
Proof.
  induction p; intros d.
  - cbn [vectors Nat.add]. rewrite C_diag.
    assert (forall k, k <= d -> length (flat_map (fun a => map (cons a) (match d - a with 0 => [[]] | S _ => [] end)) (rev (seq 0 k))) = 0) as G.
    { induction k; intros; [reflexivity|]. rewrite seq_S, rev_app_distr. cbn [rev app flat_map].
      rewrite app_length, map_length. rewrite IHk by lia. cbn [Nat.add].
      destruct (d - k) eqn:E; [lia|reflexivity]. }
    rewrite seq_S, rev_app_distr. cbn [rev app flat_map]. rewrite app_length, map_length, G by lia.
    cbn [Nat.add]. rewrite Nat.sub_diag. reflexivity.
  - change (vectors (S (S p)) d)
      with (flat_map (fun a => map (cons a) (vectors (S p) (d - a))) (rev (seq 0 (S d)))).
    assert (forall k, k <= S d ->
       length (flat_map (fun a => map (cons a) (vectors (S p) (d - a))) (rev (seq 0 k)))
       + list_sum (map (fun i => C (i + p) p) (seq 0 (S d - k))) = C (d + S p) (S p)) as G.
    { induction k; intros K.
      - cbn [seq rev flat_map length Nat.add]. rewrite Nat.sub_0_r. apply C_hockey.
      - rewrite seq_S, rev_app_distr. cbn [rev app flat_map Nat.add].
        rewrite app_length, map_length. rewrite <- IHk by lia.
        replace (S d - k) with (S (S d - S k)) by lia. rewrite seq_S, map_app, list_sum_app.
        cbn [map Nat.add]. replace (S d - S k) with (d - k) by lia.
        rewrite IHp. rewrite (Nat.add_comm (d - k) p).
        assert (C (p + (d - k)) p = C (p + (d - k)) (d - k)) as ->.
        { rewrite <- (C_sym (p + (d - k)) (d - k)) by lia. f_equal. lia. }
        match goal with |- context [list_sum [?x]] =>
          replace (list_sum [x]) with x by (unfold list_sum; cbn [fold_right]; lia) end. lia. }
    specialize (G (S d) ltac:(lia)). rewrite Nat.sub_diag in G.
    change (list_sum (map (fun i => C (i + p) p) (seq 0 0))) with 0 in G. rewrite Nat.add_0_r in G. rewrite G.
    replace (S p + d) with (d + S p) by lia. rewrite <- (C_sym (d + S p) (S p)) by lia. f_equal. lia.
Qed.
Lemma NoDup_cat : forall (A : Type) (l1 l2 : list A),
  NoDup l1 -> NoDup l2 -> (forall b, In b l1 -> ~ In b l2) -> NoDup (l1 ++ l2).
Proof.
  induction l1; intros l2 A1 B D; [exact B|]. inversion A1; subst. cbn. constructor.
  - rewrite in_app_iff. intros [|Q]; [tauto|]. apply (D a); [now left|assumption].
  - apply IHl1; try assumption. intros b Q. apply D. now right.
Qed.
Lemma vectors_nodup : forall p d, NoDup (vectors p d).
Proof.
  induction p; intros d.
  - cbn. destruct d; repeat constructor. intros [].
  - cbn [vectors].
    assert (forall l, NoDup l -> NoDup (flat_map (fun a => map (cons a) (vectors p (d - a))) l)) as G.
    { induction l; intros U; [constructor|]. inversion U; subst. cbn [flat_map].
      apply NoDup_cat.
      - apply FinFun.Injective_map_NoDup; [|apply IHp]. intros x y E. congruence.
      - now apply IHl.
      - intros b I J. apply in_map_iff in I. destruct I as (w & <- & _).
        apply in_flat_map in J. destruct J as (a' & A & J). apply in_map_iff in J.
        destruct J as (w' & E & _). injection E as -> _. contradiction. }
    apply G. apply NoDup_rev. apply seq_NoDup.
Qed.

(** ** The two successor functions *)
Definition lexnext (v w : list nat) : Prop :=
  exists u a m c, v = u ++ S a :: repeat 0 m ++ [c] /\ w = u ++ a :: S c :: repeat 0 m.

Lemma nth_mid : forall (u : list nat) a r i,
  nth i (u ++ a :: r) 0 = if i <? length u then nth i u 0
                          else if i =? length u then a else nth (i - S (length u)) r 0.
Proof.
  intros. destruct (Nat.ltb_spec i (length u)).
  - now apply app_nth1.
  - rewrite app_nth2 by assumption. destruct (Nat.eqb_spec i (length u)) as [->|].
    + rewrite Nat.sub_diag. reflexivity.
    + replace (i - length u) with (S (i - S (length u))) by lia. reflexivity.
Qed.
Lemma nth_zeros_snoc : forall m c i, nth i (repeat 0 m ++ [c]) 0 = if i =? m then c else 0.
Proof.
  intros. destruct (Nat.lt_ge_cases i m).
  - rewrite app_nth1 by now rewrite repeat_length.
    destruct (Nat.eqb_spec i m); [lia|]. apply nth_repeat.
  - rewrite app_nth2; rewrite repeat_length; [|lia].
    destruct (Nat.eqb_spec i m) as [->|]; [now rewrite Nat.sub_diag|].
    apply nth_overflow. cbn. lia.
Qed.

Definition find_down (jm : nat -> nat) : nat -> nat :=
  fix down i := match i with 0 => 0 | S i' => if jm i =? 0 then down i' else i end.
Lemma find_down_ok : forall jm b i, i <= b -> jm i <> 0 ->
  (forall k, i < k <= b -> jm k = 0) -> find_down jm b = i.
Proof.
  induction b; intros i I J K.
  - cbn. lia.
  - cbn [find_down]. destruct (Nat.eqb_spec (jm (S b)) 0) as [E|E].
    + apply IHb; [destruct (Nat.eq_dec i (S b)) as [->|]; [contradiction|lia]|assumption|].
      intros. apply K. lia.
    + destruct (Nat.eq_dec i (S b)); [congruence|]. exfalso. apply E. apply K. lia.
Qed.

Lemma next_jm_ok : forall v w f, lexnext v w -> (forall i, i < length v -> f i = nth i v 0) ->
  length w = length v /\ forall i, i < length v -> next_jm (length v) f i = nth i w 0.
Proof.
  intros v w f (u & a & m & c & -> & ->) F.
  rewrite !app_length in *. cbn [length] in *. rewrite app_length, !repeat_length in *. cbn [length] in *.
  split; [lia|].
  set (p := length u + S (m + 1)) in *.
  assert (E : forall k, k < p -> f k = if k <? length u then nth k u 0
       else if k =? length u then S a else if k =? p - 1 then c else 0).
  { intros k K. rewrite F by assumption. rewrite nth_mid.
    destruct (k <? length u) eqn:Q; [reflexivity|]. apply Nat.ltb_ge in Q.
    destruct (Nat.eqb_spec k (length u)); [reflexivity|].
    rewrite nth_zeros_snoc.
    destruct (Nat.eqb_spec (k - S (length u)) m), (Nat.eqb_spec k (p - 1)); subst p; try lia; reflexivity. }
  assert (find_down f (p - 2) = length u) as D.
  { apply find_down_ok.
    - subst p; lia.
    - rewrite E by (subst p; lia). rewrite Nat.ltb_irrefl, Nat.eqb_refl. discriminate.
    - intros k K. rewrite E by lia.
      destruct (Nat.ltb_spec k (length u)); [lia|].
      destruct (Nat.eqb_spec k (length u)); [lia|].
      destruct (Nat.eqb_spec k (p - 1)); [lia|reflexivity]. }
  intros i I. unfold next_jm. fold (find_down f). rewrite D.
  assert (f (length u) = S a) as Eu.
  { rewrite E by (subst p; lia). now rewrite Nat.ltb_irrefl, Nat.eqb_refl. }
  assert (f (p - 1) = c) as Ec.
  { rewrite E by (subst p; lia).
    destruct (Nat.ltb_spec (p - 1) (length u)); [subst p; lia|].
    destruct (Nat.eqb_spec (p - 1) (length u)); [subst p; lia|]. now rewrite Nat.eqb_refl. }
  assert (put f (length u) (f (length u) - 1) (p - 1) = c) as Ep.
  { unfold put. destruct (Nat.eqb_spec (p - 1) (length u)); [subst p; lia|]. exact Ec. }
  rewrite Ep. rewrite nth_mid.
  assert (N : forall k, nth k (S c :: repeat 0 m) 0 = if k =? 0 then S c else 0).
  { intros [|k]; [reflexivity|]. cbn [nth]. apply nth_repeat. }
  rewrite N.
  assert (X : put (put f (length u) (f (length u) - 1)) (length u + 1) (c + 1) i =
     if i <? length u then nth i u 0 else if i =? length u then a
     else if i =? S (length u) then S c else if i =? p - 1 then c else 0).
  { unfold put. rewrite Eu. rewrite Nat.add_1_r.
    destruct (Nat.eqb_spec i (S (length u))) as [->|].
    - destruct (Nat.ltb_spec (S (length u)) (length u)); [lia|].
      destruct (Nat.eqb_spec (S (length u)) (length u)); lia.
    - destruct (Nat.eqb_spec i (length u)) as [->|].
      + rewrite Nat.ltb_irrefl. lia.
      + rewrite E by assumption.
        destruct (i <? length u); [reflexivity|].
        destruct (Nat.eqb_spec i (length u)); [lia|]. reflexivity. }
  destruct (Nat.eqb_spec (length u) (p - 2)).
  - rewrite X. destruct (Nat.ltb_spec i (length u)); [reflexivity|].
    destruct (Nat.eqb_spec i (length u)); [reflexivity|].
    destruct (Nat.eqb_spec i (S (length u))), (Nat.eqb_spec (i - S (length u)) 0); try lia.
  - unfold put at 1. destruct (Nat.eqb_spec i (p - 1)) as [->|].
    + destruct (Nat.ltb_spec (p - 1) (length u)); [lia|].
      destruct (Nat.eqb_spec (p - 1) (length u)); [lia|].
      destruct (Nat.eqb_spec (p - 1 - S (length u)) 0); [subst p; lia|reflexivity].
    + rewrite X. destruct (Nat.ltb_spec i (length u)); [reflexivity|].
      destruct (Nat.eqb_spec i (length u)); [reflexivity|].
      destruct (Nat.eqb_spec i (S (length u))), (Nat.eqb_spec (i - S (length u)) 0); try lia.
Qed.

(** consecutive elements of the list of all vectors are related by [lexnext] *)
Fixpoint chain (R : list nat -> list nat -> Prop) (l : list (list nat)) : Prop :=
  match l with
  | [] => True
  | v :: r => match r with [] => True | w :: _ => R v w /\ chain R r end
  end.
Lemma chain_app : forall R l1 l2 a, chain R (l1 ++ [a]) -> chain R l2 ->
  (forall b, hd_error l2 = Some b -> R a b) -> chain R ((l1 ++ [a]) ++ l2).
Proof.
  intros R l1 l2 a. induction l1 as [|x l1 IH]; intros H1 H2 H.
  - cbn [app]. destruct l2 as [|b l2]; [exact I|]. split; [apply H; reflexivity|exact H2].
  - cbn [app] in *. destruct (l1 ++ [a]) as [|y q] eqn:E.
    + destruct l1; discriminate E.
    + cbn [app] in *. destruct H1 as [A B]. split; [exact A|]. apply IH; assumption.
Qed.
Lemma chain_map_cons : forall a l, chain lexnext l -> chain lexnext (map (cons a) l).
Proof.
  intros a. induction l as [|v l IH]; [trivial|]. cbn [map]. intros H. destruct l as [|w l]; [exact I|].
  cbn [map]. destruct H as [(u & b & m & c & -> & ->) H]. split; [|apply IH; exact H].
  exists (a :: u), b, m, c. split; reflexivity.
Qed.
Lemma vectors_hd : forall p d, hd_error (vectors (S p) d) = Some (d :: repeat 0 p).
Proof.
  assert (forall q d, vectors (S q) d =
    map (cons d) (vectors q 0) ++ flat_map (fun a => map (cons a) (vectors q (d - a))) (rev (seq 0 d))) as U.
  { intros. cbn [vectors]. rewrite seq_S, rev_app_distr. cbn [rev app flat_map Nat.add].
    rewrite Nat.sub_diag. reflexivity. }
  induction p; intros d; rewrite U.
  - reflexivity.
  - specialize (IHp 0). destruct (vectors (S p) 0); [discriminate IHp|].
    injection IHp as ->. reflexivity.
Qed.
Lemma vectors_last : forall p d, exists l, vectors (S p) d = l ++ [repeat 0 p ++ [d]].
Proof.
  induction p; intros d.
  - pose proof (vectors_length 0 d) as L. rewrite C_diag in L.
    pose proof (vectors_hd 0 d) as H. destruct (vectors 1 d) as [|v [|]]; try discriminate L.
    injection H as ->. exists []. reflexivity.
  - change (vectors (S (S p)) d)
      with (flat_map (fun a => map (cons a) (vectors (S p) (d - a))) (rev (seq 0 (S d)))).
    cbn [seq rev]. rewrite flat_map_app. cbn [flat_map]. rewrite app_nil_r, Nat.sub_0_r.
    destruct (IHp d) as (l & ->). rewrite map_app.
    eexists. rewrite app_assoc. reflexivity.
Qed.
Lemma vectors_chain : forall p d, chain lexnext (vectors (S p) d).
Proof.
  induction p; intros d.
  - pose proof (vectors_length 0 d) as L. rewrite C_diag in L.
    destruct (vectors 1 d) as [|v [|]]; try discriminate L. exact I.
  - change (vectors (S (S p)) d)
      with (flat_map (fun a => map (cons a) (vectors (S p) (d - a))) (rev (seq 0 (S d)))).
    assert (forall k, k <= S d ->
      chain lexnext (flat_map (fun a => map (cons a) (vectors (S p) (d - a))) (rev (seq 0 k)))
      /\ (k > 0 -> hd_error (flat_map (fun a => map (cons a) (vectors (S p) (d - a))) (rev (seq 0 k)))
             = Some (k - 1 :: d - (k - 1) :: repeat 0 p))) as G.
    { induction k; intros K; [split; [exact I|lia]|].
      rewrite seq_S, rev_app_distr. cbn [rev app flat_map Nat.add].
      specialize (IHk ltac:(lia)) as [A B]. split.
      - destruct (vectors_last p (d - k)) as (l & E).
        pose proof (chain_map_cons k _ (IHp (d - k))) as M. rewrite E, map_app in M |- *. cbn [map] in *.
        apply chain_app; [exact M|exact A|].
        intros b Hb. destruct k; [discriminate Hb|]. rewrite B in Hb by lia. injection Hb as <-.
        exists [], k, p, (d - S k). split; [reflexivity|]. cbn [app].
        cbn [Nat.sub]. rewrite Nat.sub_0_r. replace (S (d - S k)) with (d - k) by lia. reflexivity.
      - intros _. pose proof (vectors_hd p (d - k)) as H. destruct (vectors (S p) (d - k)); [discriminate H|].
        injection H as ->. cbn [map app hd_error]. cbn [Nat.sub]. now rewrite Nat.sub_0_r. }
    apply G. lia.
Qed.

(** the loop of coeff: starting with (d,0,...,0), k applications of next_jm *)
Fixpoint iter {A : Type} (n : nat) (f : A -> A) (x : A) : A :=
  match n with 0 => x | S n' => f (iter n' f x) end.

Lemma chain_nth : forall R l k v w, chain R l -> nth_error l k = Some v -> nth_error l (S k) = Some w -> R v w.
Proof.
  induction l as [|x l IH]; intros k v w H A B; [destruct k; discriminate A|].
  destruct l as [|y l]; [destruct k; discriminate B|]. destruct H as [H1 H2]. destruct k.
  - injection A as <-. injection B as <-. exact H1.
  - apply (IH k); assumption.
Qed.
Lemma coeff_directions : forall p d k v, 0 < p -> nth_error (vectors p d) k = Some v ->
  forall i, i < p -> iter k (next_jm p) (array (d :: repeat 0 (p - 1))) i = nth i v 0.
Proof.
  intros p d k v P. destruct p as [|p]; [lia|]. clear P.
  revert v. induction k; intros v E i I; cbn [iter].
  - pose proof (vectors_hd p d) as H. destruct (vectors (S p) d); [discriminate E|].
    injection E as <-. injection H as ->. cbn [Nat.sub]. rewrite Nat.sub_0_r. reflexivity.
  - assert (exists u, nth_error (vectors (S p) d) k = Some u) as [u U].
    { destruct (nth_error (vectors (S p) d) k) eqn:Q; [eauto|]. apply nth_error_None in Q.
      assert (nth_error (vectors (S p) d) (S k) <> None) as Z by congruence.
      apply nth_error_Some in Z. lia. }
    pose proof (chain_nth _ _ _ _ _ (vectors_chain p d) U E) as X.
    pose proof (nth_error_In _ _ U) as In1. apply vectors_in in In1. destruct In1 as [L _].
    destruct (next_jm_ok u v (iter k (next_jm (S p)) (array (d :: repeat 0 (S p - 1)))) X) as [_ N].
    { intros j J. apply (IHk u U). lia. }
    rewrite L in N. now apply N.
Qed.

(** ** The loop of tensor_eval *)
Fixpoint itl (x : nat) (v : list nat) : list nat :=
  match v with [] => [] | n :: r => repeat x n ++ itl (S x) r end.
Lemma itl_app : forall u w x, itl x (u ++ w) = itl x u ++ itl (x + length u) w.
Proof.
  induction u; intros w x; cbn [app itl length].
  - now rewrite Nat.add_0_r.
  - rewrite IHu, app_assoc. now replace (x + S (length u)) with (S x + length u) by lia.
Qed.
Lemma itl_zeros : forall m x, itl x (repeat 0 m) = [].
Proof. induction m; intros; [reflexivity|]. cbn [repeat itl app]. apply IHm. Qed.
Lemma itl_length : forall v x, length (itl x v) = list_sum v.
Proof. induction v; intros; [reflexivity|]. cbn [itl]. rewrite app_length, repeat_length, IHv. reflexivity. Qed.
Lemma itl_bounds : forall v x, List.Forall (fun y => x <= y < x + length v) (itl x v).
Proof.
  induction v; intros x; cbn [itl length]; [constructor|]. apply List.Forall_app. split.
  - apply List.Forall_forall. intros y I. apply repeat_spec in I. lia.
  - eapply List.Forall_impl; [|apply IHv]. cbn. intros. lia.
Qed.
Lemma count_app : forall l m v, count (l ++ m) v = count l v + count m v.
Proof. intros. unfold count. apply count_occ_app. Qed.
Lemma count_repeat : forall x n v, count (repeat x n) v = if x =? v then n else 0.
Proof.
  induction n; intros; cbn [repeat]; [now destruct (x =? v)|]. rewrite count_cons, IHn.
  destruct (x =? v); reflexivity.
Qed.
Lemma count_itl : forall v x k, count (itl x v) (x + k) = nth k v 0.
Proof.
  induction v; intros x k; cbn [itl]; [destruct k; reflexivity|].
  rewrite count_app, count_repeat. destruct k.
  - rewrite Nat.add_0_r, Nat.eqb_refl. cbn [nth].
    assert (count (itl (S x) v) x = 0) as ->; [|lia].
    pose proof (itl_bounds v (S x)) as B. induction B; [reflexivity|].
    rewrite count_cons. destruct (Nat.eqb_spec x0 x); [lia|assumption].
  - destruct (Nat.eqb_spec x (x + S k)); [lia|]. cbn [nth].
    replace (x + S k) with (S x + k) by lia. apply IHv.
Qed.

Lemma convert_count : forall l f, (forall i, i < length l -> f i = nth i l 0) ->
  forall v, convert (length l) f v = count l (v + 1).
Proof.
  induction l as [|x l IH] using rev_ind; intros f F v; [reflexivity|].
  rewrite app_length in *. cbn [length] in *. rewrite Nat.add_1_r in *. unfold convert.
  rewrite seq_S, fold_left_app. cbn [fold_left Nat.add].
  fold (convert (length l) f).
  assert (f (length l) = x) as Fx.
  { rewrite F by lia. rewrite app_nth2 by lia. now rewrite Nat.sub_diag. }
  assert (forall i, i < length l -> f i = nth i l 0) as Fl.
  { intros i I. rewrite F by lia. now apply app_nth1. }
  rewrite Fx, count_app, count_cons. change (count [] (v + 1)) with 0.
  destruct (Nat.eqb_spec x 0) as [->|].
  - rewrite (IH f Fl). destruct (Nat.eqb_spec 0 (v + 1)); lia.
  - unfold put. destruct (Nat.eqb_spec v (x - 1)) as [->|].
    + rewrite (IH f Fl). destruct (Nat.eqb_spec x (x - 1 + 1)); lia.
    + rewrite (IH f Fl). destruct (Nat.eqb_spec x (v + 1)); lia.
Qed.

Lemma next_it_ok : forall p U x c f, x < p -> List.Forall (fun y => y <= x) U ->
  let d := length U + S c in
  (forall i, i < d -> f i = nth i (U ++ x :: repeat p c) 0) ->
  forall i, i < d -> next_it p d f i = nth i (U ++ repeat (S x) (S c)) 0.
Proof.
  intros p U x c f X B d F.
  set (R := fun i => if i <? length U then nth i U 0 else if i =? length U then S x else S p).
  set (Fin := fun i => if i <? length U then nth i U 0 else S x).
  assert (E : forall i, i < d -> f i = if i <? length U then nth i U 0
                                     else if i =? length U then x else p).
  { intros i I. rewrite F by assumption. rewrite nth_mid.
    destruct (i <? length U) eqn:Q; [reflexivity|]. destruct (Nat.eqb_spec i (length U)); [reflexivity|].
    apply Nat.ltb_ge in Q.
    assert (i - S (length U) < c) as G by (subst d; lia). revert G. generalize (i - S (length U)).
    clear. induction c; intros n H; [lia|]. destruct n; [reflexivity|]. cbn [repeat nth]. apply IHc. lia. }
  assert (Bn : forall i, i < length U -> nth i U 0 <= x).
  { intros i I. rewrite List.Forall_forall in B. apply B. now apply nth_In. }
  assert (d1 : 0 < d) by (subst d; lia).
  (* carries *)
  assert (S2 : forall n a, n < d ->
    (forall i, i < d -> a i = if i <? n then f i else R i) ->
    forall i, i < d ->
    fold_left (fun a j => put a j (a j + a (j + 1) / (p + 1))) (rev (seq 0 n)) a i = R i).
  { induction n; intros a Nn A i I.
    - cbn. rewrite A by assumption. reflexivity.
    - rewrite seq_S, rev_app_distr. cbn [rev app fold_left Nat.add].
      apply IHn; [lia| |assumption]. clear i I. intros i I. unfold put.
      destruct (Nat.eqb_spec i n) as [->|].
      + rewrite Nat.ltb_irrefl. rewrite (A n), (A (n + 1)) by lia.
        rewrite (proj2 (Nat.ltb_lt n (S n))) by lia.
        destruct (Nat.ltb_spec (n + 1) (S n)); [lia|].
        rewrite E by lia. unfold R.
        destruct (Nat.ltb_spec n (length U)).
        * rewrite Nat.div_small; [lia|]. destruct (Nat.ltb_spec (n + 1) (length U)).
          -- specialize (Bn (n + 1) ltac:(lia)). lia.
          -- destruct (Nat.eqb_spec (n + 1) (length U)); lia.
        * destruct (Nat.ltb_spec (n + 1) (length U)); [lia|].
          destruct (Nat.eqb_spec (n + 1) (length U)); [lia|].
          replace (S p) with (p + 1) by lia. rewrite Nat.div_same by lia.
          destruct (n =? length U); lia.
      + rewrite A by assumption.
        destruct (Nat.ltb_spec i (S n)), (Nat.ltb_spec i n); try lia; reflexivity. }
  (* repairs *)
  assert (S3 : forall n a, n < d ->
    (forall i, i < d -> a i = R i) ->
    forall i, i < d ->
    fold_left (fun a j => if p <? a j then put a j (a (j - 1)) else a) (seq 1 n) a i
     = if i <? S n then Fin i else R i).
  { induction n; intros a Nn A i I.
    - cbn [seq fold_left]. rewrite A by assumption.
      destruct (Nat.ltb_spec i 1); [|reflexivity]. replace i with 0 by lia.
      unfold R, Fin. destruct (length U); reflexivity.
    - rewrite seq_S, fold_left_app. cbn [fold_left].
      set (b := fold_left _ (seq 1 n) a). replace (1 + n) with (S n) by lia.
      assert (Bq : forall i, i < d -> b i = if i <? S n then Fin i else R i).
      { intros. apply IHn; [lia|assumption|assumption]. }
      assert (b (S n) = R (S n)) as Bs.
      { rewrite Bq by assumption. now rewrite Nat.ltb_irrefl. }
      rewrite Bs. unfold R at 1.
      destruct (Nat.ltb_spec (S n) (length U)) as [G|G].
      + rewrite (proj2 (Nat.ltb_ge p (nth (S n) U 0))) by (specialize (Bn _ G); lia).
        rewrite Bq by assumption.
        destruct (Nat.ltb_spec i (S n)), (Nat.ltb_spec i (S (S n))); try lia; try reflexivity.
        replace i with (S n) by lia. unfold R, Fin. destruct (Nat.ltb_spec (S n) (length U)); [reflexivity|lia].
      + destruct (Nat.eqb_spec (S n) (length U)) as [Q|Q].
        * rewrite (proj2 (Nat.ltb_ge p (S x))) by lia. rewrite Bq by assumption.
          destruct (Nat.ltb_spec i (S n)), (Nat.ltb_spec i (S (S n))); try lia; try reflexivity.
          replace i with (S n) by lia. unfold R, Fin.
          destruct (Nat.ltb_spec (S n) (length U)); [lia|].
          destruct (Nat.eqb_spec (S n) (length U)); [reflexivity|lia].
        * rewrite (proj2 (Nat.ltb_lt p (S p))) by lia. unfold put.
          destruct (Nat.eqb_spec i (S n)) as [->|].
          -- replace (S n - 1) with n by lia. rewrite Bq by lia.
             rewrite (proj2 (Nat.ltb_lt n (S n))) by lia.
             rewrite (proj2 (Nat.ltb_lt (S n) (S (S n)))) by lia.
             unfold Fin. destruct (Nat.ltb_spec n (length U)), (Nat.ltb_spec (S n) (length U)); try lia; reflexivity.
          -- rewrite Bq by assumption.
             destruct (Nat.ltb_spec i (S n)), (Nat.ltb_spec i (S (S n))); try lia; reflexivity. }
  intros i I. unfold next_it.
  rewrite S3; [|lia| |assumption].
  - rewrite (proj2 (Nat.ltb_lt i (S (d - 1)))) by lia. unfold Fin.
    destruct (Nat.ltb_spec i (length U)).
    + now rewrite app_nth1 by assumption.
    + rewrite app_nth2 by assumption.
      assert (i - length U < S c) as G by (subst d; lia). revert G. generalize (i - length U) (S c).
      clear. intros k n. revert k. induction n; intros k H; [lia|]. destruct k; [reflexivity|].
      cbn [repeat nth]. apply IHn. lia.
  - apply S2; [lia|]. intros j J. unfold put. destruct (Nat.eqb_spec j (d - 1)) as [->|].
    + rewrite Nat.ltb_irrefl. rewrite E by lia. unfold R.
      destruct (Nat.ltb_spec (d - 1) (length U)); [subst d; lia|].
      destruct (d - 1 =? length U); lia.
    + destruct (Nat.ltb_spec j (d - 1)); [reflexivity|lia].
Qed.

Lemma itl_next : forall v w p d f, lexnext v w -> length v = p -> list_sum v = d ->
  (forall i, i < d -> f i = nth i (itl 1 v) 0) ->
  forall i, i < d -> next_it p d f i = nth i (itl 1 w) 0.
Proof.
  intros v w p d f (u & a & m & c & -> & ->) L Sd F.
  rewrite itl_app in *. cbn [itl] in *. rewrite itl_app, itl_zeros in F. cbn [app itl] in F.
  rewrite app_nil_r in F. rewrite repeat_length in F.
  rewrite itl_zeros, app_nil_r.
  rewrite !app_length in L. cbn [length] in L. rewrite app_length, repeat_length in L. cbn [length] in L.
  replace (S (1 + length u) + m) with p in F by lia.
  set (U := itl 1 u ++ repeat (1 + length u) a).
  assert (forall i, i < d -> f i = nth i (U ++ (1 + length u) :: repeat p c) 0) as F'.
  { intros i I. rewrite F by assumption. f_equal. unfold U. rewrite <- !app_assoc. f_equal.
    rewrite repeat_snoc, <- app_assoc. reflexivity. }
  assert (d = length U + S c) as ->.
  { unfold U. rewrite app_length, repeat_length, itl_length. rewrite <- Sd.
    rewrite list_sum_app. unfold list_sum at 2. cbn [fold_right].
    rewrite fold_right_app. cbn [fold_right].
    assert (forall k n, fold_right Nat.add n (repeat 0 k) = n) as Z by (clear; induction k; intros; cbn; auto).
    rewrite Z. lia. }
  intros i I. rewrite app_assoc. fold U. apply next_it_ok; try assumption; [lia|].
  unfold U. apply List.Forall_app. split.
  - eapply List.Forall_impl; [|apply itl_bounds]. cbn. intros. lia.
  - apply List.Forall_forall. intros y Iy. apply repeat_spec in Iy. lia.
Qed.

(** the first direction: (1,...,1,0) is advanced once before it is used *)
Definition start (d : nat) : nat -> nat := fun i => if i <? d - 1 then 1 else 0.
Lemma first_it : forall p d i, 0 < p -> 2 <= d -> i < d -> next_it p d (start d) i = 1.
Proof.
  intros p d i P D I.
  unfold next_it, start.
  set (it1 := put _ (d - 1) _).
  assert (A : forall i, i < d -> it1 i = 1).
  { intros k K. unfold it1, put. destruct (Nat.eqb_spec k (d - 1)) as [->|].
    - now rewrite Nat.ltb_irrefl.
    - rewrite (proj2 (Nat.ltb_lt k (d - 1))) by lia. reflexivity. }
  assert (B : forall n a, n < d -> (forall i, i < d -> a i = 1) -> forall i, i < d ->
    fold_left (fun a j => put a j (a j + a (j + 1) / (p + 1))) (rev (seq 0 n)) a i = 1).
  { induction n; intros a Nn Aa k K; [now apply Aa|].
    rewrite seq_S, rev_app_distr. cbn [rev app fold_left Nat.add].
    apply IHn; [lia| |assumption]. intros j J. unfold put. destruct (Nat.eqb_spec j n).
    - rewrite !Aa by lia. rewrite Nat.div_small by lia. lia.
    - now apply Aa. }
  assert (Cc : forall n a, n < d -> (forall i, i < d -> a i = 1) -> forall i, i < d ->
    fold_left (fun a j => if p <? a j then put a j (a (j - 1)) else a) (seq 1 n) a i = 1).
  { induction n; intros a Nn Aa k K; [now apply Aa|].
    rewrite seq_S, fold_left_app. cbn [fold_left]. rewrite IHn by (try assumption; lia).
    rewrite (proj2 (Nat.ltb_ge p 1)) by lia. apply IHn; try assumption; lia. }
  apply Cc; [lia| |assumption]. apply B; [lia|]. exact A.
Qed.

Lemma eval_directions : forall p d k v, 0 < p -> 2 <= d -> nth_error (vectors p d) k = Some v ->
  forall i, i < d -> iter (S k) (next_it p d) (start d) i = nth i (itl 1 v) 0.
Proof.
  intros p d k v P D. destruct p as [|p]; [lia|].
  revert v. induction k; intros v E.
  - intros i I. cbn [iter]. rewrite first_it by assumption.
    pose proof (vectors_hd p d) as H. destruct (vectors (S p) d); [discriminate E|].
    injection E as <-. injection H as ->. cbn [itl]. rewrite itl_zeros, app_nil_r.
    revert I. clear. revert i. induction d; intros i I; [lia|]. destruct i; [reflexivity|].
    cbn [repeat nth]. apply IHd. lia.
  - assert (exists u, nth_error (vectors (S p) d) k = Some u) as [u U].
    { destruct (nth_error (vectors (S p) d) k) eqn:Q; [eauto|]. apply nth_error_None in Q.
      assert (nth_error (vectors (S p) d) (S k) <> None) as Z by congruence.
      apply nth_error_Some in Z. lia. }
    pose proof (chain_nth _ _ _ _ _ (vectors_chain p d) U E) as X.
    pose proof (nth_error_In _ _ U) as In1. apply vectors_in in In1. destruct In1 as [L Sm].
    intros i I. change (iter (S (S k)) (next_it (S p) d) (start d))
      with (next_it (S p) d (iter (S k) (next_it (S p) d) (start d))).
    apply (itl_next u v); try assumption. exact (IHk u U).
Qed.
Lemma eval_exponents : forall p d k v, 0 < p -> 2 <= d -> nth_error (vectors p d) k = Some v ->
  forall i, i < p -> convert d (iter (S k) (next_it p d) (start d)) i = nth i v 0.
Proof.
  intros p d k v P D E i I.
  pose proof (nth_error_In _ _ E) as In1. apply vectors_in in In1. destruct In1 as [L Sm].
  pose proof (eval_directions p d k v P D E) as F.
  assert (d = length (itl 1 v)) as Ld by (rewrite itl_length; congruence).
  rewrite Ld at 1. rewrite (convert_count (itl 1 v)).
  - rewrite Nat.add_comm. apply count_itl.
  - intros j J. apply F. lia.
Qed.
(** d = 1: it[0] = 1, 2, ..., p *)
Lemma eval_exponents_1 : forall p k v, nth_error (vectors p 1) k = Some v ->
  forall i, i < p -> convert 1 (fun _ => k + 1) i = nth i v 0.
Proof.
  assert (Z : forall p, vectors p 0 = [repeat 0 p]).
  { induction p; [reflexivity|]. cbn [vectors seq rev app flat_map Nat.sub]. rewrite IHp. reflexivity. }
  assert (forall p k, k < p -> nth_error (vectors p 1) k = Some (repeat 0 k ++ 1 :: repeat 0 (p - k - 1))) as G.
  { induction p; intros k K; [lia|].
    replace (vectors (S p) 1) with (map (cons 1) (vectors p 0) ++ map (cons 0) (vectors p 1))
      by (cbn [vectors seq rev app flat_map Nat.sub]; now rewrite app_nil_r).
    rewrite Z. cbn [map app]. destruct k.
    - cbn [nth_error repeat app Nat.sub]. now rewrite Nat.sub_0_r.
    - cbn [nth_error]. rewrite (map_nth_error _ _ _ (IHp k ltac:(lia))). reflexivity. }
  intros p k v E i I.
  assert (k < p) as K.
  { assert (length (vectors p 1) = p) as L.
    { destruct p; [reflexivity|]. rewrite vectors_length, Nat.add_1_r.
      assert (forall m, C m 1 = m) as X by (clear; induction m; [reflexivity|]; rewrite C_S, C_0; lia). apply X. }
    rewrite <- L. apply nth_error_Some. congruence. }
  rewrite G in E by assumption. injection E as <-.
  unfold convert. cbn [seq fold_left]. rewrite Nat.add_1_r. cbn [Nat.eqb]. unfold put.
  cbn [Nat.sub]. rewrite Nat.sub_0_r.
  rewrite nth_mid, repeat_length.
  destruct (Nat.eqb_spec i k) as [->|].
  - rewrite Nat.ltb_irrefl. reflexivity.
  - destruct (Nat.ltb_spec i k); rewrite nth_repeat; reflexivity.
Qed.
