(* C35: proofs. *)
From Coq Require Import List ZArith Bool Arith Lia Reals Lra Permutation.
Require Import Verif.LinModel Verif.LinSpec.
Import ListNotations.
Local Open Scope R_scope.

(* ------------------------------------------------------------------ *)
(* sums *)
Lemma total_ext n f g : (forall i, (i < n)%nat -> f i = g i) -> total n f = total n g.
Proof. induction n; intros H; cbn; auto. rewrite IHn, H; auto. Qed.
Lemma total_plus n f g : total n (fun i => f i + g i) = total n f + total n g.
Proof. induction n; cbn; rewrite ?IHn; ring. Qed.
Lemma total_scal n a f : total n (fun i => a * f i) = a * total n f.
Proof. induction n; cbn; rewrite ?IHn; ring. Qed.
Lemma total_scalr n a f : total n (fun i => f i * a) = total n f * a.
Proof. induction n; cbn; rewrite ?IHn; ring. Qed.
Lemma total_0 n f : (forall i, (i < n)%nat -> f i = 0) -> total n f = 0.
Proof. induction n; intros H; cbn; auto. rewrite IHn, H; auto; ring. Qed.
Lemma total_swap m n f : total m (fun i => total n (fun j => f i j)) = total n (fun j => total m (fun i => f i j)).
Proof. induction m; cbn. - symmetry. now apply total_0. - rewrite IHm, <- total_plus. reflexivity. Qed.
(* a sum whose terms from m on vanish *)
Lemma total_cut m n f : (m <= n)%nat -> (forall i, (m <= i < n)%nat -> f i = 0) -> total n f = total m f.
Proof.
  induction n; intros L H. - now replace m with O by lia.
  - destruct (Nat.eq_dec m (S n)) as [->|]; auto. cbn. rewrite IHn, (H n); try lia; [ring|]. intros; apply H; lia.
Qed.
Lemma total_split n l f : (l < n)%nat ->
  total n f = total n (fun j => if Nat.eqb j l then 0 else f j) + f l.
Proof.
  induction n; intros H; [lia|]. cbn [total]. destruct (Nat.eq_dec l n) as [->|].
  - rewrite Nat.eqb_refl, Rplus_0_r. f_equal. apply total_ext. intros j Hj.
    destruct (Nat.eqb_spec j n); [lia|auto].
  - rewrite IHn by lia. destruct (Nat.eqb_spec n l); [lia|ring].
Qed.
Lemma total_single n l f : (l < n)%nat -> (forall j, (j < n)%nat -> j <> l -> f j = 0) -> total n f = f l.
Proof.
  intros H Z. rewrite (total_split n l) by auto. rewrite total_0; [ring|].
  intros j Hj. destruct (Nat.eqb_spec j l); auto.
Qed.
Lemma total_list n f : total n f = fold_right (fun i s => f i + s) 0 (seq 0 n).
Proof.
  assert (P : forall l s, fold_right (fun i s => f i + s) s l = fold_right (fun i s => f i + s) 0 l + s).
  { induction l; intros s; cbn; [ring|]. rewrite IHl. ring. }
  induction n; auto. rewrite seq_S, fold_right_app. cbn. rewrite P, IHn. ring.
Qed.
Lemma fold_perm (f : nat -> R) (l l' : list nat) : Permutation l l' ->
  fold_right (fun i s => f i + s) 0 l = fold_right (fun i s => f i + s) 0 l'.
Proof. induction 1; cbn; try lra. Qed.
Lemma fold_map (f : nat -> R) (p : nat -> nat) (l : list nat) :
  fold_right (fun i s => f i + s) 0 (map p l) = fold_right (fun i s => f (p i) + s) 0 l.
Proof. induction l; cbn; congruence. Qed.

(* p permutes 0..n-1 *)
Definition perm (n : nat) (p : nat -> nat) : Prop := Permutation (map p (seq 0 n)) (seq 0 n).
Lemma total_perm n p f : perm n p -> total n (fun i => f (p i)) = total n f.
Proof. intros P. rewrite !total_list. rewrite <- fold_map. now apply fold_perm. Qed.
Lemma perm_id n : perm n (fun i => i).
Proof. unfold perm. now rewrite map_id. Qed.
Lemma perm_lt n p i : perm n p -> (i < n)%nat -> (p i < n)%nat.
Proof.
  intros P H. assert (In (p i) (seq 0 n)) as Q.
  { apply (Permutation_in _ P), in_map, in_seq. lia. }
  apply in_seq in Q. lia.
Qed.
Lemma perm_onto n p r : perm n p -> (r < n)%nat -> exists i, (i < n)%nat /\ p i = r.
Proof.
  intros P H. assert (In r (map p (seq 0 n))) as Q.
  { apply (Permutation_in _ (Permutation_sym P)), in_seq. lia. }
  apply in_map_iff in Q as (i & E & I). apply in_seq in I. exists i. split; [lia|auto].
Qed.
Lemma perm_inj n p i j : perm n p -> (i < n)%nat -> (j < n)%nat -> p i = p j -> i = j.
Proof.
  intros P Hi Hj E.
  assert (N : NoDup (map p (seq 0 n))).
  { apply (Permutation_NoDup (Permutation_sym P)), seq_NoDup. }
  rewrite (NoDup_nth _ O) in N. rewrite map_length, seq_length in N.
  apply N; auto. rewrite !nth_indep with (d := O) (d' := p O) by (rewrite map_length, seq_length; auto).
  rewrite !map_nth, !seq_nth by auto. exact E.
Qed.

(* the exchange as a rearrangement of indices *)
Definition tr (k r i : nat) : nat := if Nat.eqb i k then r else if Nat.eqb i r then k else i.
Lemma exchange_tr p k r i : (k <= r)%nat -> exchange p k r i = p (tr k r i).
Proof.
  intros H. unfold exchange, setv, tr. destruct (Nat.ltb_spec k r).
  - destruct (Nat.eqb_spec i r); destruct (Nat.eqb_spec i k); subst; auto; lia.
  - replace r with k by lia. destruct (Nat.eqb_spec i k); subst; auto.
Qed.
Lemma tr_lt n k r i : (k < n)%nat -> (r < n)%nat -> (i < n)%nat -> (tr k r i < n)%nat.
Proof. unfold tr. intros. repeat match goal with |- context [if ?c then _ else _] => destruct c end; auto. Qed.
Lemma tr_inv k r i : tr k r (tr k r i) = i.
Proof.
  unfold tr. destruct (Nat.eqb_spec i k) as [->|].
  - destruct (Nat.eqb_spec r k) as [->|]; auto. now rewrite Nat.eqb_refl.
  - destruct (Nat.eqb_spec i r) as [->|].
    + now rewrite Nat.eqb_refl.
    + destruct (Nat.eqb_spec i k); [lia|]. destruct (Nat.eqb_spec i r); [lia|auto].
Qed.
Lemma perm_tr n k r : (k < n)%nat -> (r < n)%nat -> perm n (tr k r).
Proof.
  intros Hk Hr. unfold perm. apply NoDup_Permutation_bis.
  - apply FinFun.Injective_map_NoDup; [|apply seq_NoDup]. intros a b E.
    rewrite <- (tr_inv k r a), E. apply tr_inv.
  - now rewrite map_length.
  - intros a Ha. apply in_map_iff in Ha as (b & <- & Hb). apply in_seq in Hb. apply in_seq.
    split; [lia|]. apply tr_lt; auto. lia.
Qed.
Lemma perm_comp n p q : perm n p -> perm n q -> perm n (fun i => p (q i)).
Proof.
  unfold perm. intros P Q. rewrite <- (map_map q p).
  eapply Permutation_trans; [apply Permutation_map, Q|exact P].
Qed.
Lemma perm_ext n p q : (forall i, p i = q i) -> perm n p -> perm n q.
Proof. unfold perm. intros H P. now rewrite <- (map_ext p q H). Qed.
Lemma perm_exchange n p k r : (k <= r < n)%nat -> perm n p -> perm n (exchange p k r).
Proof.
  intros H P. apply (perm_ext n (fun i => p (tr k r i))).
  - intros i. symmetry. apply exchange_tr. lia.
  - apply perm_comp; auto. apply perm_tr; lia.
Qed.

(* ------------------------------------------------------------------ *)
(* pivot search *)
Lemma gtb_spec x y : gtb x y = true <-> y < x.
Proof. unfold gtb. destruct (Rlt_dec y x); split; auto; discriminate. Qed.
Lemma gtb_false x y : gtb x y = false <-> x <= y.
Proof. unfold gtb. destruct (Rlt_dec y x); split; intros; auto; try discriminate; lra. Qed.

Lemma pivot_inv J ri ci k n : let '(v, r, c) := pivot J ri ci k n in
  (v = 0 \/ ((k <= r < n)%nat /\ (k <= c < n)%nat /\ v = Rabs (J (ri r) (ci c)))) /\ 0 <= v.
Proof.
  set (Q := fun s : R * nat * nat => let '(v, r, c) := s in
     (v = 0 \/ ((k <= r < n)%nat /\ (k <= c < n)%nat /\ v = Rabs (J (ri r) (ci c)))) /\ 0 <= v).
  change (Q (pivot J ri ci k n)). unfold pivot.
  assert (Row : forall i, (k <= i < n)%nat -> forall l s, (forall j, In j l -> (k <= j < n)%nat) -> Q s ->
    Q (fold_left (fun s j => let a := Rabs (J (ri i) (ci j)) in
                        if gtb a (fst (fst s)) then (a, i, j) else s) l s)).
  { intros i Hi. induction l as [|j l IH]; intros s Hl Hs; cbn [fold_left]; auto.
    apply IH. - intros q Hq. apply Hl. now right.
    - cbv zeta. destruct (gtb _ _); auto. cbn. split; [right|apply Rabs_pos].
      split; auto. split; auto. apply Hl. now left. }
  assert (G : forall l s, (forall i, In i l -> (k <= i < n)%nat) -> Q s ->
     Q (fold_left (fun s i => pivot_row J ri ci k n i s) l s)).
  { induction l as [|i l IH]; intros s Hl Hs; cbn [fold_left]; auto.
    apply IH. - intros q Hq. apply Hl. now right.
    - unfold pivot_row. apply Row; auto. + apply Hl. now left. + intros j Hj. apply in_seq in Hj. lia. }
  apply G. - intros i Hi. apply in_seq in Hi. lia.
  - cbn. split; [left; auto|lra].
Qed.
Lemma pivot_found J ri ci k n v r c : pivot J ri ci k n = (v, r, c) -> gtb ZERO v = false ->
  (k <= r < n)%nat /\ (k <= c < n)%nat /\ J (ri r) (ci c) <> 0.
Proof.
  intros E G. pose proof (pivot_inv J ri ci k n) as P. rewrite E in P. apply gtb_false in G.
  assert (0 < ZERO). { unfold ZERO. apply Rinv_0_lt_compat, pow_lt. lra. }
  destruct P as [[->|(A & B & C)] _]; [lra|]. split; auto. split; auto.
  intros Z. rewrite Z, Rabs_R0 in C. lra.
Qed.

(* ------------------------------------------------------------------ *)
(* elimination *)
Lemma setm_eq J r c v : setm J r c v r c = v.
Proof. unfold setm. now rewrite !Nat.eqb_refl. Qed.
Lemma setm_neq J r c v r' c' : r' <> r \/ c' <> c -> setm J r c v r' c' = J r' c'.
Proof. unfold setm. destruct (Nat.eqb_spec r' r), (Nat.eqb_spec c' c); cbn; auto. lia. Qed.

Section Elim.
Variables (n : nat) (ri ci : nat -> nat).
Hypothesis Pr : perm n ri.
Hypothesis Pc : perm n ci.

Lemma ri_neq i j : (i < n)%nat -> (j < n)%nat -> i <> j -> ri i <> ri j.
Proof. intros A B C E. apply C. apply (perm_inj n ri); auto. Qed.
Lemma ci_neq i j : (i < n)%nat -> (j < n)%nat -> i <> j -> ci i <> ci j.
Proof. intros A B C E. apply C. apply (perm_inj n ci); auto. Qed.

Lemma lu_row_spec k i J : (k < i < n)%nat -> forall a c, (a < n)%nat -> (c < n)%nat ->
  lu_row ri ci k n i J (ri a) (ci c) =
  if Nat.eqb a i then
    if Nat.eqb c k then J (ri i) (ci k) / J (ri k) (ci k)
    else if Nat.ltb k c then J (ri i) (ci c) - J (ri i) (ci k) / J (ri k) (ci k) * J (ri k) (ci c)
    else J (ri i) (ci c)
  else J (ri a) (ci c).
Proof.
  intros Hi a c Ha Hc. unfold lu_row.
  set (J1 := setm J (ri i) (ci k) (J (ri i) (ci k) / J (ri k) (ci k))).
  set (m := J (ri i) (ci k) / J (ri k) (ci k)) in *.
  assert (L : forall d from J', (k < from)%nat -> (from + d <= n)%nat -> J' (ri i) (ci k) = m ->
    (forall q, (q < n)%nat -> J' (ri k) (ci q) = J (ri k) (ci q)) ->
    fold_left (fun J j => setm J (ri i) (ci j) (J (ri i) (ci j) - J (ri i) (ci k) * J (ri k) (ci j)))
      (seq from d) J' (ri a) (ci c) =
    if (Nat.eqb a i && (Nat.leb from c && Nat.ltb c (from + d)))%bool
    then J' (ri i) (ci c) - m * J (ri k) (ci c) else J' (ri a) (ci c)).
  { induction d as [|d IH]; intros from J' H1 H2 H3 H4; cbn [seq fold_left].
    - destruct (Nat.leb_spec from c), (Nat.ltb_spec c (from + 0)); try lia; cbn; rewrite ?andb_false_r; auto.
    - rewrite IH; try lia.
      + destruct (Nat.eqb_spec a i) as [->|Na]; cbn [andb].
        * destruct (Nat.eq_dec c from) as [->|Nc].
          -- destruct (Nat.leb_spec (S from) from); [lia|]. cbn [andb].
             destruct (Nat.leb_spec from from); [|lia]. destruct (Nat.ltb_spec from (from + S d)); [|lia]. cbn [andb].
             rewrite setm_eq, H3, H4 by lia. reflexivity.
          -- rewrite !setm_neq by (right; apply ci_neq; lia).
             destruct (Nat.leb_spec (S from) c), (Nat.leb_spec from c), (Nat.ltb_spec c (S from + d)), (Nat.ltb_spec c (from + S d)); try lia; reflexivity.
        * rewrite setm_neq by (left; apply ri_neq; lia). reflexivity.
      + rewrite setm_neq by (right; apply ci_neq; lia). auto.
      + intros q Hq. rewrite setm_neq by (left; apply ri_neq; lia). auto. }
  rewrite L; try lia.
  - unfold J1. destruct (Nat.eqb_spec a i) as [->|Na]; cbn [andb].
    + destruct (Nat.eqb_spec c k) as [->|Nc].
      * destruct (Nat.leb_spec (S k) k); [lia|]. cbn [andb]. apply setm_eq.
      * rewrite !setm_neq by (right; apply ci_neq; lia).
        destruct (Nat.leb_spec (S k) c), (Nat.ltb_spec k c), (Nat.ltb_spec c (S k + (n - S k))); try lia; reflexivity.
    + rewrite setm_neq by (left; apply ri_neq; lia). reflexivity.
  - unfold J1. apply setm_eq.
  - intros q Hq. unfold J1. rewrite setm_neq by (left; apply ri_neq; lia). reflexivity.
Qed.

Lemma lu_rows_spec k J : (k < n)%nat -> forall a c, (a < n)%nat -> (c < n)%nat ->
  lu_rows ri ci k n J (ri a) (ci c) =
  if Nat.ltb k a then
    if Nat.eqb c k then J (ri a) (ci k) / J (ri k) (ci k)
    else if Nat.ltb k c then J (ri a) (ci c) - J (ri a) (ci k) / J (ri k) (ci k) * J (ri k) (ci c)
    else J (ri a) (ci c)
  else J (ri a) (ci c).
Proof.
  intros Hk a c Ha Hc. unfold lu_rows.
  assert (L : forall d from J', (k < from)%nat -> (from + d <= n)%nat ->
    (forall q, (q < n)%nat -> J' (ri k) (ci q) = J (ri k) (ci q)) ->
    (forall p q, (from <= p < n)%nat -> (q < n)%nat -> J' (ri p) (ci q) = J (ri p) (ci q)) ->
    fold_left (fun J i => lu_row ri ci k n i J) (seq from d) J' (ri a) (ci c) =
    if (Nat.leb from a && Nat.ltb a (from + d))%bool then
      if Nat.eqb c k then J (ri a) (ci k) / J (ri k) (ci k)
      else if Nat.ltb k c then J (ri a) (ci c) - J (ri a) (ci k) / J (ri k) (ci k) * J (ri k) (ci c)
      else J (ri a) (ci c)
    else J' (ri a) (ci c)).
  { induction d as [|d IH]; intros from J' H1 H2 H3 H4; cbn [seq fold_left].
    - destruct (Nat.leb_spec from a), (Nat.ltb_spec a (from + 0)); try lia; reflexivity.
    - rewrite IH; try lia.
      + destruct (Nat.eq_dec a from) as [->|Na].
        * destruct (Nat.leb_spec (S from) from); [lia|]. cbn [andb].
          destruct (Nat.leb_spec from from); [|lia]. destruct (Nat.ltb_spec from (from + S d)); [|lia]. cbn [andb].
          rewrite lu_row_spec by lia. rewrite Nat.eqb_refl, !H3, !H4 by lia. reflexivity.
        * destruct (Nat.leb_spec (S from) a), (Nat.leb_spec from a), (Nat.ltb_spec a (S from + d)), (Nat.ltb_spec a (from + S d)); try lia; cbn [andb]; auto;
          rewrite lu_row_spec by lia; destruct (Nat.eqb_spec a from); try lia; reflexivity.
      + intros q Hq. rewrite lu_row_spec by lia. destruct (Nat.eqb_spec k from); [lia|]. auto.
      + intros p q Hp Hq. rewrite lu_row_spec by lia. destruct (Nat.eqb_spec p from); [lia|]. apply H4; lia. }
  rewrite L; try lia; auto.
  destruct (Nat.leb_spec (S k) a), (Nat.ltb_spec k a), (Nat.ltb_spec a (S k + (n - S k))); try lia; reflexivity.
Qed.
End Elim.

(* ------------------------------------------------------------------ *)
(* the invariant of the factorisation, k steps done *)
Definition tailt (J : mat) (ri ci : nat -> nat) (k i j : nat) : R :=
  if (Nat.ltb j i && Nat.ltb j k)%bool then J (ri i) (ci j) * J (ri j) (ci j) else J (ri i) (ci j).
Definition factored (n k : nat) (A J : mat) (ri ci : nat -> nat) : Prop :=
  perm n ri /\ perm n ci /\
  (forall i, (i < k)%nat -> (i < n)%nat -> J (ri i) (ci i) <> 0) /\
  forall i j, (i < n)%nat -> (j < n)%nat ->
  A (ri i) (ci j) =
  total (Nat.min k (Nat.min i j)) (fun l => J (ri i) (ci l) * J (ri l) (ci j)) + tailt J ri ci k i j.

Lemma factored_exchange n k A J ri ci r c : (k < n)%nat -> (k <= r < n)%nat -> (k <= c < n)%nat ->
  factored n k A J ri ci -> factored n k A J (exchange ri k r) (exchange ci k c).
Proof.
  intros Hk Hr Hc (P1 & P2 & D & E).
  assert (Lo : forall q i, (i < k)%nat -> (k <= q)%nat -> tr k q i = i).
  { intros q i H1 H2. unfold tr. destruct (Nat.eqb_spec i k); [lia|]. destruct (Nat.eqb_spec i q); [lia|auto]. }
  assert (Hi : forall q i, (k <= i)%nat -> (k <= q)%nat -> (k <= tr k q i)%nat).
  { intros q i H1 H2. unfold tr. destruct (Nat.eqb_spec i k); [lia|]. destruct (Nat.eqb_spec i q); lia. }
  split; [apply perm_exchange; auto|]. split; [apply perm_exchange; auto|]. split.
  - intros i H1 H2. rewrite !exchange_tr, !Lo by lia. auto.
  - intros i j H1 H2. rewrite !exchange_tr by lia.
    rewrite E by (apply tr_lt; lia). f_equal.
    + replace (Nat.min k (Nat.min (tr k r i) (tr k c j))) with (Nat.min k (Nat.min i j)).
      * apply total_ext. intros l Hl. now rewrite !exchange_tr, (Lo r l), (Lo c l) by lia.
      * destruct (Nat.lt_ge_cases i k), (Nat.lt_ge_cases j k); rewrite ?(Lo r i), ?(Lo c j) by lia; auto;
          pose proof (Hi r i); pose proof (Hi c j); lia.
    + unfold tailt. rewrite !(exchange_tr ri), !(exchange_tr ci) by lia.
      destruct (Nat.lt_ge_cases i k), (Nat.lt_ge_cases j k); rewrite ?(Lo r i), ?(Lo c j) by lia.
      * rewrite !(Lo r j) by lia. reflexivity.
      * destruct (Nat.ltb_spec j i), (Nat.ltb_spec (tr k c j) i); auto; pose proof (Hi c j); lia.
      * rewrite !(Lo r j) by lia. pose proof (Hi r i).
        destruct (Nat.ltb_spec j i), (Nat.ltb_spec j (tr k r i)); auto; lia.
      * pose proof (Hi r i); pose proof (Hi c j).
        destruct (Nat.ltb_spec j k), (Nat.ltb_spec (tr k c j) k); try lia. rewrite !andb_false_r. reflexivity.
Qed.

Lemma factored_step n k A J ri ci : (k < n)%nat -> J (ri k) (ci k) <> 0 ->
  factored n k A J ri ci -> factored n (S k) A (lu_rows ri ci k n J) ri ci.
Proof.
  intros Hk Nz (P1 & P2 & D & E).
  pose proof (fun a c => lu_rows_spec n ri ci P1 P2 k J Hk a c) as Sp.
  split; auto. split; auto. split.
  - intros i H1 H2. rewrite Sp by lia. destruct (Nat.ltb_spec k i); [lia|].
    destruct (Nat.eq_dec i k) as [->|]; auto. apply D; lia.
  - intros i j Hi Hj. rewrite E by auto.
    destruct (Nat.le_gt_cases i k) as [Li|Li].
    { (* upper rows are untouched *)
      replace (Nat.min (S k) (Nat.min i j)) with (Nat.min k (Nat.min i j)) by lia.
      f_equal.
      - apply total_ext. intros l Hl. rewrite !Sp by lia.
        destruct (Nat.ltb_spec k i), (Nat.ltb_spec k l); try lia. reflexivity.
      - unfold tailt. rewrite !Sp by lia.
        destruct (Nat.ltb_spec k i); try lia.
        destruct (Nat.ltb_spec j i); cbn [andb]; auto.
        destruct (Nat.ltb_spec j k), (Nat.ltb_spec j (S k)); try lia.
        destruct (Nat.ltb_spec k j); try lia; reflexivity. }
    assert (S1 : total (Nat.min k (Nat.min i j)) (fun l => J (ri i) (ci l) * J (ri l) (ci j)) =
                 total (Nat.min k (Nat.min i j)) (fun l => lu_rows ri ci k n J (ri i) (ci l) * lu_rows ri ci k n J (ri l) (ci j))).
    { apply total_ext. intros l Hl. rewrite !Sp by lia.
      destruct (Nat.ltb_spec k i), (Nat.ltb_spec k l), (Nat.eqb_spec l k); try lia. reflexivity. }
    unfold tailt. rewrite S1. rewrite !(Sp i) by lia.
    destruct (Nat.ltb_spec k i); [|lia].
    destruct (Nat.lt_trichotomy j k) as [Lj|[->|Lj]].
    + replace (Nat.min (S k) (Nat.min i j)) with (Nat.min k (Nat.min i j)) by lia.
      destruct (Nat.eqb_spec j k), (Nat.ltb_spec k j), (Nat.ltb_spec j i), (Nat.ltb_spec j k), (Nat.ltb_spec j (S k)); try lia.
      cbn [andb]. rewrite Sp by lia. destruct (Nat.ltb_spec k j); [lia|]. reflexivity.
    + replace (Nat.min (S k) (Nat.min i k)) with (Nat.min k (Nat.min i k)) by lia.
      rewrite Nat.eqb_refl. destruct (Nat.ltb_spec k k), (Nat.ltb_spec k (S k)); try lia.
      rewrite andb_false_r. cbn [andb]. rewrite Sp by lia.
      destruct (Nat.ltb_spec k k); [lia|]. destruct (Nat.ltb_spec k i); [|lia]. cbn [andb].
      f_equal. field. exact Nz.
    + replace (Nat.min (S k) (Nat.min i j)) with (S k) by lia.
      replace (Nat.min k (Nat.min i j)) with k by lia. cbn [total].
      rewrite !Sp by lia.
      destruct (Nat.ltb_spec k i), (Nat.ltb_spec k k), (Nat.eqb_spec k k), (Nat.eqb_spec j k), (Nat.ltb_spec k j),
        (Nat.ltb_spec j k), (Nat.ltb_spec j (S k)); try lia.
      rewrite !andb_false_r. ring.
Qed.

Lemma lu_loop_spec n A : forall todo k J ri ci, (k + todo)%nat = n -> factored n k A J ri ci ->
  let f := lu_loop todo k n J ri ci in
  (0 <= lu_rc f)%Z -> factored n n A (lu_J f) (lu_ri f) (lu_ci f) /\ lu_rc f = Z.of_nat n.
Proof.
  induction todo as [|t IH]; intros k J ri ci Hn F; cbv zeta; cbn [lu_loop].
  - cbn. intros _. rewrite Nat.add_0_r in Hn. subst k. auto.
  - destruct (pivot J ri ci k n) as [[v r] c] eqn:E.
    destruct (gtb ZERO v) eqn:G.
    + cbn [lu_rc]. intros H. lia.
    + destruct (pivot_found _ _ _ _ _ _ _ _ E G) as (Hr & Hc & Nz).
      apply IH; [lia|]. apply factored_step; [lia| |apply factored_exchange; auto; lia].
      rewrite !exchange_tr by lia. unfold tr. rewrite Nat.eqb_refl. exact Nz.
Qed.
Lemma LU_factored n A : let f := LUFactorization A n in
  (0 <= lu_rc f)%Z -> factored n n A (lu_J f) (lu_ri f) (lu_ci f) /\ lu_rc f = Z.of_nat n.
Proof.
  apply lu_loop_spec; auto. split; [apply perm_id|]. split; [apply perm_id|]. split; [intros; lia|].
  intros i j Hi Hj. cbn [Nat.min total]. unfold tailt.
  destruct (Nat.ltb_spec j 0); [lia|]. rewrite andb_false_r. ring.
Qed.

(* ------------------------------------------------------------------ *)
(* A = L U *)
Section LU.
Variables (n : nat) (A J : mat) (ri ci : nat -> nat).
Hypothesis F : factored n n A J ri ci.
Definition lo (i l : nat) : R := if Nat.ltb l i then J (ri i) (ci l) else if Nat.eqb l i then 1 else 0.
Definition up (l j : nat) : R := if Nat.leb l j then J (ri l) (ci j) else 0.

Lemma product i j : (i < n)%nat -> (j < n)%nat -> A (ri i) (ci j) = total n (fun l => lo i l * up l j).
Proof.
  intros Hi Hj. destruct F as (_ & _ & _ & E). rewrite E by auto.
  set (m := Nat.min i j).
  rewrite (total_cut (S m) n).
  - cbn [total]. replace (Nat.min n m) with m by lia. f_equal.
    + apply total_ext. intros l Hl. unfold lo, up.
      destruct (Nat.ltb_spec l i), (Nat.leb_spec l j); try lia. reflexivity.
    + unfold tailt, lo, up, m. destruct (Nat.ltb_spec j i); cbn [andb].
      * destruct (Nat.ltb_spec j n); [|lia]. replace (Nat.min i j) with j by lia.
        destruct (Nat.ltb_spec j i), (Nat.leb_spec j j); try lia. reflexivity.
      * replace (Nat.min i j) with i by lia. rewrite Nat.ltb_irrefl, Nat.eqb_refl.
        destruct (Nat.leb_spec i j); [ring|lia].
  - lia.
  - intros l Hl. unfold lo, up. destruct (Nat.ltb_spec l i), (Nat.eqb_spec l i), (Nat.leb_spec l j); try lia; ring.
Qed.

(* A w in terms of L and U *)
Lemma apply_A w i : (i < n)%nat ->
  total n (fun j => A (ri i) (ci j) * w j) = total n (fun l => lo i l * total n (fun j => up l j * w j)).
Proof.
  intros Hi.
  rewrite (total_ext n _ (fun j => total n (fun l => lo i l * up l j * w j))).
  2:{ intros j Hj. rewrite product by auto. now rewrite <- total_scalr. }
  rewrite total_swap. apply total_ext. intros l _. rewrite <- total_scal. apply total_ext. intros; ring.
Qed.
Lemma lower_sum z i : (i < n)%nat -> total n (fun l => lo i l * z l) = total i (fun l => J (ri i) (ci l) * z l) + z i.
Proof.
  intros Hi. rewrite (total_cut (S i) n).
  - cbn [total]. f_equal.
    + apply total_ext. intros l Hl. unfold lo. destruct (Nat.ltb_spec l i); [reflexivity|lia].
    + unfold lo. rewrite Nat.ltb_irrefl, Nat.eqb_refl. ring.
  - lia.
  - intros l Hl. unfold lo. destruct (Nat.ltb_spec l i), (Nat.eqb_spec l i); try lia. ring.
Qed.

(* original indices *)
Lemma apply_orig x i : (i < n)%nat ->
  total n (fun c => A (ri i) c * x c) = total n (fun j => A (ri i) (ci j) * x (ci j)).
Proof. intros Hi. symmetry. apply (total_perm n ci (fun c => A (ri i) c * x c)). apply F. Qed.

Theorem LU_nonsingular : nonsingular n A.
Proof.
  intros x H. set (w := fun j => x (ci j)).
  assert (Y : forall l, (l < n)%nat -> total n (fun j => up l j * w j) = 0).
  { induction l as [l IH] using (well_founded_induction lt_wf). intros Hl.
    pose proof (H (ri l) (perm_lt _ _ _ (proj1 F) Hl)) as Q.
    rewrite apply_orig in Q by auto. fold w in Q.
    change (total n (fun j => A (ri l) (ci j) * w j) = 0) in Q.
    rewrite apply_A, lower_sum in Q by auto.
    rewrite total_0 in Q; [lra|]. intros m Hm. rewrite IH by lia. ring. }
  assert (W : forall d l, (l + d)%nat = n -> forall j, (l <= j < n)%nat -> w j = 0).
  { induction d as [|d IH]; intros l Hl j Hj; [lia|].
    destruct (Nat.eq_dec j l) as [->|]; [|apply (IH (S l)); lia].
    pose proof (Y l ltac:(lia)) as Q.
    destruct F as (_ & _ & D & _). specialize (D l ltac:(lia) ltac:(lia)).
    assert (E : total n (fun j => up l j * w j) = J (ri l) (ci l) * w l).
    { rewrite (total_single n l); [|lia|].
      - unfold up. rewrite Nat.leb_refl. reflexivity.
      - intros q Hq Nq. unfold up. destruct (Nat.leb_spec l q); [|ring].
        rewrite (IH (S l) ltac:(lia) q ltac:(lia)). ring. }
    rewrite E in Q. apply Rmult_integral in Q as [Q|Q]; [contradiction|auto]. }
  intros c Hc. destruct (perm_onto n ci c (proj1 (proj2 F)) Hc) as (j & Hj & <-).
  apply (W n O); lia.
Qed.

(* forward substitution *)
Lemma setv_eq {T} (b : nat -> T) i v : setv b i v i = v.
Proof. unfold setv. now rewrite Nat.eqb_refl. Qed.
Lemma setv_neq {T} (b : nat -> T) i v j : j <> i -> setv b i v j = b j.
Proof. unfold setv. intros. destruct (Nat.eqb_spec j i); [lia|auto]. Qed.

Lemma forw_inner i z : let z' := fold_left (fun z j => setv z i (z i - J (ri i) (ci j) * z j)) (seq 0 i) z in
  z' i = z i - total i (fun j => J (ri i) (ci j) * z j) /\ forall j, j <> i -> z' j = z j.
Proof.
  cbv zeta. assert (G : forall d, (d <= i)%nat ->
    let z' := fold_left (fun z j => setv z i (z i - J (ri i) (ci j) * z j)) (seq 0 d) z in
    z' i = z i - total d (fun j => J (ri i) (ci j) * z j) /\ forall j, j <> i -> z' j = z j).
  { induction d as [|d IH]; intros Hd; cbv zeta.
    - cbn. split; [ring|auto].
    - rewrite seq_S, fold_left_app. cbn [fold_left Nat.add]. destruct (IH ltac:(lia)) as [I1 I2]. cbv zeta in I1, I2.
      rewrite setv_eq. cbn [total]. rewrite I1, I2 by lia. split; [ring|].
      intros j Hj. rewrite setv_neq by auto. apply I2; auto. }
  apply G. lia.
Qed.
Lemma forw_spec b z0 : let z := forw J ri ci n b z0 in
  forall i, (i < n)%nat -> total i (fun j => J (ri i) (ci j) * z j) + z i = b (ri i).
Proof.
  cbv zeta. unfold forw.
  assert (G : forall d, (d <= n)%nat ->
    let z := fold_left (fun z i => fold_left (fun z j => setv z i (z i - J (ri i) (ci j) * z j)) (seq 0 i) (setv z i (b (ri i)))) (seq 0 d) z0 in
    forall i, (i < d)%nat -> total i (fun j => J (ri i) (ci j) * z j) + z i = b (ri i)).
  { induction d as [|d IH]; intros Hd z i Hi; [lia|]. subst z.
    rewrite seq_S, fold_left_app. cbn [fold_left Nat.add].
    match goal with |- context [fold_left ?f (seq 0 d) z0] => set (z := fold_left f (seq 0 d) z0) in * end. specialize (IH ltac:(lia)). cbv zeta in IH.
    destruct (forw_inner d (setv z d (b (ri d)))) as [I1 I2]. cbv zeta in I1, I2.
    match type of I1 with context [fold_left ?f (seq 0 d) ?q] => set (z' := fold_left f (seq 0 d) q) in * end.
    assert (K : forall j, j <> d -> z' j = z j) by (intros j Hj; rewrite I2, setv_neq; auto).
    rewrite (total_ext i _ (fun j => J (ri i) (ci j) * z j)) by (intros j Hj; rewrite K; auto; lia).
    destruct (Nat.eq_dec i d) as [->|Ni].
    - rewrite I1, setv_eq.
      rewrite (total_ext d (fun j => J (ri d) (ci j) * setv z d (b (ri d)) j) (fun j => J (ri d) (ci j) * z j)); [ring|].
      intros j Hj. rewrite setv_neq; auto; lia.
    - rewrite K by auto. apply IH. lia. }
  apply G. lia.
Qed.

(* backward substitution; sums from S i to n-1 *)
Lemma backw_inner i z b : (i < n)%nat ->
  let b' := fold_left (fun b j => setv b (ci i) (b (ci i) - J (ri i) (ci j) * b (ci j)))
              (seq (S i) (n - S i)) (setv b (ci i) z) in
  b' (ci i) = z - (total n (fun j => up i j * b (ci j)) - up i i * b (ci i)) /\
  forall c, c <> ci i -> b' c = b c.
Proof.
  intros Hi. cbv zeta. destruct F as (_ & Pc & _).
  assert (G : forall d, (S i + d <= n)%nat ->
    let b' := fold_left (fun b j => setv b (ci i) (b (ci i) - J (ri i) (ci j) * b (ci j)))
              (seq (S i) d) (setv b (ci i) z) in
    b' (ci i) = z - (total (S i + d) (fun j => up i j * b (ci j)) - up i i * b (ci i)) /\
    forall c, c <> ci i -> b' c = b c).
  { induction d as [|d IH]; intros Hd; cbv zeta.
    - cbn [seq fold_left]. rewrite setv_eq, Nat.add_0_r. cbn [total]. split.
      + rewrite total_0; [ring|]. intros j Hj. unfold up. destruct (Nat.leb_spec i j); [lia|ring].
      + intros c Hc. now apply setv_neq.
    - rewrite seq_S, fold_left_app. cbn [fold_left]. destruct (IH ltac:(lia)) as [I1 I2]. cbv zeta in I1, I2.
      rewrite setv_eq, I1, (I2 (ci (S i + d))) by (apply (ci_neq n ci Pc); lia).
      replace (S i + S d)%nat with (S (S i + d)) by lia. cbn [total Nat.add]. split.
      + assert (U : up i (S (i + d)) = J (ri i) (ci (S (i + d)))).
        { unfold up. destruct (Nat.leb_spec i (S (i + d))); [reflexivity|lia]. }
        rewrite U. ring.
      + intros c Hc. rewrite setv_neq by auto. apply I2; auto. }
  destruct (G (n - S i)%nat ltac:(lia)) as [G1 G2]. cbv zeta in G1, G2.
  replace (S i + (n - S i))%nat with n in G1 by lia. auto.
Qed.
Lemma backw_spec z b0 : let b := backw J ri ci n z b0 in
  forall l, (l < n)%nat -> total n (fun j => up l j * b (ci j)) = z l.
Proof.
  cbv zeta. unfold backw. pose proof F as (_ & Pc & D & _).
  match goal with |- context [fold_left ?f (rev (seq 0 n)) b0] => set (step := f) end.
  assert (G : forall d, (d <= n)%nat -> let b := fold_left step (rev (seq (n - d) d)) b0 in
     forall l, (n - d <= l < n)%nat -> total n (fun j => up l j * b (ci j)) = z l).
  { induction d as [|d IH]; intros Hd b l Hl; [lia|]. subst b.
    cbn [seq rev]. rewrite fold_left_app. cbn [fold_left].
    replace (S (n - S d)) with (n - d)%nat by lia.
    set (b := fold_left step (rev (seq (n - d) d)) b0) in *. specialize (IH ltac:(lia)). cbv zeta in IH.
    set (i := (n - S d)%nat) in *. unfold step.
    destruct (backw_inner i (z i) b ltac:(lia)) as [I1 I2]. cbv zeta in I1, I2.
    match type of I1 with context [fold_left ?f (seq (S i) (n - S i)) ?q] => set (b1 := fold_left f (seq (S i) (n - S i)) q) in * end.
    assert (Nz : J (ri i) (ci i) <> 0) by (apply D; lia).
    assert (K : forall j, (j < n)%nat -> j <> i -> setv b1 (ci i) (b1 (ci i) / J (ri i) (ci i)) (ci j) = b (ci j)).
    { intros j Hj Nj. rewrite setv_neq by (apply (ci_neq n ci Pc); lia). apply I2. apply (ci_neq n ci Pc); lia. }
    destruct (Nat.eq_dec l i) as [->|Nl].
    - rewrite (total_split n i) by lia.
      rewrite (total_ext n _ (fun j => if Nat.eqb j i then 0 else up i j * b (ci j))).
      2:{ intros j Hj. destruct (Nat.eqb_spec j i); auto. rewrite K; auto. }
      rewrite setv_eq, I1.
      rewrite (total_split n i (fun j => up i j * b (ci j))) by lia.
      assert (U : up i i = J (ri i) (ci i)) by (unfold up; now rewrite Nat.leb_refl).
      rewrite U. field. exact Nz.
    - rewrite (total_ext n _ (fun j => up l j * b (ci j))); [apply IH; lia|].
      intros j Hj. destruct (Nat.eq_dec j i) as [->|Nj]; [|rewrite K; auto].
      unfold up. destruct (Nat.leb_spec l i); [lia|ring]. }
  intros l Hl. specialize (G n (Nat.le_refl n)). rewrite Nat.sub_diag in G. apply G. lia.
Qed.

Theorem GauszSolve_solves b z0 : solves n A (GauszSolve J n ri ci b z0) b.
Proof.
  intros r Hr. pose proof F as (Pr & Pc & _).
  destruct (perm_onto n ri r Pr Hr) as (i & Hi & <-).
  rewrite apply_orig by auto.
  rewrite (apply_A (fun j => GauszSolve J n ri ci b z0 (ci j))) by auto.
  rewrite (total_ext n _ (fun l => lo i l * forw J ri ci n b z0 l)).
  - rewrite lower_sum by auto. now apply forw_spec.
  - intros l Hl. f_equal. unfold GauszSolve. now apply backw_spec.
Qed.
End LU.

(* ------------------------------------------------------------------ *)
(* What a failure means: the Schur complement is smaller than ZERO *)
Lemma pivot_max J ri ci k n i j : (k <= i < n)%nat -> (k <= j < n)%nat ->
  Rabs (J (ri i) (ci j)) <= fst (fst (pivot J ri ci k n)).
Proof.
  intros Hi Hj.
  assert (Row : forall i l s, fst (fst s) <= fst (fst (fold_left (fun s j => let a := Rabs (J (ri i) (ci j)) in
                        if gtb a (fst (fst s)) then (a, i, j) else s) l s)) /\
     (In j l -> Rabs (J (ri i) (ci j)) <= fst (fst (fold_left (fun s j => let a := Rabs (J (ri i) (ci j)) in
                        if gtb a (fst (fst s)) then (a, i, j) else s) l s)))).
  { intros i'. induction l as [|q l IH]; intros s; cbn [fold_left]; [split; [lra|intros []]|].
    cbv zeta. destruct (gtb (Rabs (J (ri i') (ci q))) (fst (fst s))) eqn:G.
    - destruct (IH (Rabs (J (ri i') (ci q)), i', q)) as [I1 I2]. cbn in I1. apply gtb_spec in G.
      split; [cbv zeta in I1; lra|]. intros [->|H]; auto.
    - destruct (IH s) as [I1 I2]. apply gtb_false in G. split; auto. intros [->|H]; auto. cbv zeta in I1. lra. }
  unfold pivot.
  assert (Gx : forall l s, fst (fst s) <= fst (fst (fold_left (fun s i => pivot_row J ri ci k n i s) l s)) /\
     (In i l -> Rabs (J (ri i) (ci j)) <= fst (fst (fold_left (fun s i => pivot_row J ri ci k n i s) l s)))).
  { induction l as [|q l IH]; intros s; cbn [fold_left]; [split; [lra|intros []]|].
    destruct (IH (pivot_row J ri ci k n q s)) as [I1 I2].
    destruct (Row q (seq k (n - k)) s) as [R1 R2].
    change (fst (fst s) <= fst (fst (pivot_row J ri ci k n q s))) in R1.
    change (In j (seq k (n - k)) -> Rabs (J (ri q) (ci j)) <= fst (fst (pivot_row J ri ci k n q s))) in R2.
    split; [lra|]. intros [->|H]; auto.
    specialize (R2 ltac:(apply in_seq; lia)). lra. }
  apply Gx. apply in_seq. lia.
Qed.

Lemma lu_loop_failed n A : forall todo k J ri ci, (k + todo)%nat = n -> factored n k A J ri ci ->
  let f := lu_loop todo k n J ri ci in
  (lu_rc f < 0)%Z -> exists k, (k < n)%nat /\ factored n k A (lu_J f) (lu_ri f) (lu_ci f) /\
    forall i j, (k <= i < n)%nat -> (k <= j < n)%nat -> Rabs (lu_J f (lu_ri f i) (lu_ci f j)) < ZERO.
Proof.
  induction todo as [|t IH]; intros k J ri ci Hn F; cbv zeta; cbn [lu_loop].
  - cbn. intros H. lia.
  - destruct (pivot J ri ci k n) as [[v r] c] eqn:E.
    destruct (gtb ZERO v) eqn:G.
    + cbn [lu_rc lu_J lu_ri lu_ci]. intros H. exists k. split; [lia|]. split; auto.
      intros i j Hi Hj. apply gtb_spec in G. pose proof (pivot_max J ri ci k n i j Hi Hj) as P.
      rewrite E in P. cbn in P. lra.
    + destruct (pivot_found _ _ _ _ _ _ _ _ E G) as (Hr & Hc & Nz).
      apply IH; [lia|]. apply factored_step; [lia| |apply factored_exchange; auto; lia].
      rewrite !exchange_tr by lia. unfold tr. rewrite Nat.eqb_refl. exact Nz.
Qed.

Lemma product_part n k A J ri ci i j : factored n k A J ri ci -> (k < n)%nat -> (i < n)%nat -> (j < n)%nat ->
  A (ri i) (ci j) = total k (fun l => lo J ri ci i l * up J ri ci l j) +
    (if (Nat.leb k i && Nat.leb k j)%bool then J (ri i) (ci j) else 0).
Proof.
  intros (_ & _ & _ & E) Hk Hi Hj. rewrite E by auto. unfold tailt.
  destruct (Nat.leb_spec k i), (Nat.leb_spec k j); cbn [andb].
  - replace (Nat.min k (Nat.min i j)) with k by lia. destruct (Nat.ltb_spec j k); [lia|].
    rewrite andb_false_r. f_equal. apply total_ext. intros l Hl. unfold lo, up.
    destruct (Nat.ltb_spec l i), (Nat.leb_spec l j); try lia. reflexivity.
  - destruct (Nat.ltb_spec j i), (Nat.ltb_spec j k); try lia. cbn [andb].
    replace (Nat.min k (Nat.min i j)) with j by lia.
    rewrite (total_cut (S j) k); [|lia|].
    + cbn [total]. rewrite Rplus_0_r. f_equal.
      * apply total_ext. intros l Hl. unfold lo, up.
        destruct (Nat.ltb_spec l i), (Nat.leb_spec l j); try lia. reflexivity.
      * unfold lo, up. destruct (Nat.ltb_spec j i), (Nat.leb_spec j j); try lia. reflexivity.
    + intros l Hl. unfold up. destruct (Nat.leb_spec l j); [lia|ring].
  - destruct (Nat.ltb_spec j k); [lia|]. rewrite andb_false_r.
    replace (Nat.min k (Nat.min i j)) with i by lia.
    rewrite (total_cut (S i) k); [|lia|].
    + cbn [total]. rewrite Rplus_0_r. f_equal.
      * apply total_ext. intros l Hl. unfold lo, up.
        destruct (Nat.ltb_spec l i), (Nat.leb_spec l j); try lia. reflexivity.
      * unfold lo, up. rewrite Nat.ltb_irrefl, Nat.eqb_refl. destruct (Nat.leb_spec i j); [ring|lia].
    + intros l Hl. unfold lo. destruct (Nat.ltb_spec l i), (Nat.eqb_spec l i); try lia. ring.
  - rewrite Rplus_0_r. set (m := Nat.min i j). replace (Nat.min k m) with m by lia.
    rewrite (total_cut (S m) k); [|lia|].
    + cbn [total]. f_equal.
      * apply total_ext. intros l Hl. unfold lo, up.
        destruct (Nat.ltb_spec l i), (Nat.leb_spec l j); try lia. reflexivity.
      * unfold lo, up, m. destruct (Nat.ltb_spec j i), (Nat.ltb_spec j k); try lia; cbn [andb].
        -- replace (Nat.min i j) with j by lia.
           destruct (Nat.ltb_spec j i), (Nat.leb_spec j j); try lia. reflexivity.
        -- replace (Nat.min i j) with i by lia. rewrite Nat.ltb_irrefl, Nat.eqb_refl.
           destruct (Nat.leb_spec i j); [ring|lia].
    + intros l Hl. unfold lo, up. destruct (Nat.ltb_spec l i), (Nat.eqb_spec l i), (Nat.leb_spec l j); try lia; ring.
Qed.

(* a vector that U sends to 0, with entry 1 at k *)
Lemma kernel_of_U n k J ri ci : (k < n)%nat -> (forall l, (l < k)%nat -> J (ri l) (ci l) <> 0) ->
  exists w, w k = 1 /\ (forall j, (k < j)%nat -> w j = 0) /\
    forall l, (l < k)%nat -> total n (fun j => up J ri ci l j * w j) = 0.
Proof.
  intros Hk D.
  assert (G : forall d, (d <= k)%nat -> exists w, w k = 1 /\ (forall j, (k < j)%nat -> w j = 0) /\
    forall l, (k - d <= l < k)%nat -> total n (fun j => up J ri ci l j * w j) = 0).
  { induction d as [|d IH]; intros Hd.
    - exists (fun j => if Nat.eqb j k then 1 else 0). rewrite Nat.eqb_refl. split; auto. split.
      + intros j Hj. destruct (Nat.eqb_spec j k); [lia|auto].
      + intros; lia.
    - destruct (IH ltac:(lia)) as (w & W1 & W2 & W3). set (i := (k - S d)%nat).
      set (rest := total n (fun j => if Nat.eqb j i then 0 else up J ri ci i j * w j)).
      exists (setv w i (- rest / J (ri i) (ci i))). split; [rewrite setv_neq; auto; lia|]. split.
      + intros j Hj. rewrite setv_neq by lia. auto.
      + intros l Hl. destruct (Nat.eq_dec l i) as [->|Nl].
        * rewrite (total_split n i) by lia.
          rewrite (total_ext n _ (fun j => if Nat.eqb j i then 0 else up J ri ci i j * w j)).
          2:{ intros j Hj. destruct (Nat.eqb_spec j i); auto. rewrite setv_neq; auto. }
          fold rest. rewrite setv_eq. unfold up. rewrite Nat.leb_refl. field. apply D. lia.
        * rewrite <- (W3 l ltac:(lia)). apply total_ext. intros j Hj.
          destruct (Nat.eq_dec j i) as [->|Nj]; [|now rewrite setv_neq].
          unfold up. destruct (Nat.leb_spec l i); [lia|ring]. }
  destruct (G k (Nat.le_refl k)) as (w & W1 & W2 & W3). exists w. split; auto. split; auto.
  intros l Hl. apply W3. lia.
Qed.

Theorem LU_failed n A : (lu_rc (LUFactorization A n) < 0)%Z ->
  exists x c, (c < n)%nat /\ x c = 1 /\
    forall r, (r < n)%nat -> Rabs (total n (fun c => A r c * x c)) < ZERO.
Proof.
  intros H. unfold LUFactorization in H.
  assert (F0 : factored n 0 A A (fun i => i) (fun j => j)).
  { split; [apply perm_id|]. split; [apply perm_id|]. split; [intros; lia|].
    intros i j Hi Hj. cbn [Nat.min total]. unfold tailt.
    destruct (Nat.ltb_spec j 0); [lia|]. rewrite andb_false_r. ring. }
  destruct (lu_loop_failed n A n 0 A _ _ eq_refl F0 H) as (k & Hk & F & Sm).
  set (f := lu_loop n 0 n A (fun i => i) (fun j => j)) in *.
  generalize dependent (lu_J f). generalize (lu_ri f) (lu_ci f). clear f H. intros ri ci J F Sm.
  pose proof F as (Pr & Pc & D & _).
  destruct (kernel_of_U n k J ri ci Hk ltac:(intros; apply D; lia)) as (w & W1 & W2 & W3).
  assert (X : exists x, forall j, (j < n)%nat -> x (ci j) = w j).
  { clear - Pc. exists (fun c => match find (fun j => Nat.eqb (ci j) c) (seq 0 n) with Some j => w j | None => 0 end).
    intros j Hj. destruct (find (fun q => Nat.eqb (ci q) (ci j)) (seq 0 n)) as [q|] eqn:E.
    - apply find_some in E as [E1 E2]. apply in_seq in E1. apply Nat.eqb_eq in E2.
      rewrite (perm_inj n ci q j Pc); auto; lia.
    - exfalso. pose proof (find_none _ _ E j ltac:(apply in_seq; lia)) as Q. cbn in Q.
      rewrite Nat.eqb_refl in Q. discriminate. }
  destruct X as (x & X). exists x, (ci k). split; [now apply perm_lt|]. split; [rewrite X; auto|].
  intros r Hr. destruct (perm_onto n ri r Pr Hr) as (i & Hi & <-).
  rewrite <- (total_perm n ci (fun c => A (ri i) c * x c) Pc).
  rewrite (total_ext n _ (fun j => total k (fun l => lo J ri ci i l * up J ri ci l j * w j) +
     (if (Nat.leb k i && Nat.leb k j)%bool then J (ri i) (ci j) else 0) * w j)).
  2:{ intros j Hj. rewrite X by auto. rewrite (product_part n k A J ri ci i j F Hk Hi Hj).
      rewrite Rmult_plus_distr_r, <- total_scalr. reflexivity. }
  rewrite total_plus, (total_swap n k).
  rewrite (total_0 k).
  2:{ intros l Hl. rewrite (total_ext n _ (fun j => lo J ri ci i l * (up J ri ci l j * w j))) by (intros; ring).
      rewrite total_scal, W3 by auto. ring. }
  rewrite (total_single n k); [|auto|].
  - rewrite W1, Nat.leb_refl, Rplus_0_l, Rmult_1_r. destruct (Nat.leb_spec k i); cbn [andb].
    + apply Sm; lia.
    + rewrite Rabs_R0. unfold ZERO. apply Rinv_0_lt_compat, pow_lt. lra.
  - intros j Hj Nj. destruct (Nat.leb_spec k j).
    + rewrite W2 by lia. ring.
    + rewrite andb_false_r. ring.
Qed.
