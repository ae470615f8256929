(* C46: accodec computes the recurrence, with and without the sparsity array. *)
From Coq Require Import List ZArith Bool Arith Lia Reals Lra.
From Coquelicot Require Import Coquelicot.
Require Import Verif.AdModel Verif.AdReal Verif.HosModel Verif.HosSpec Verif.HosTay Verif.OdeModel Verif.OdeSpec.
Import ListNotations.
Set Implicit Arguments.
Unset Asymmetric Patterns.
Local Open Scope R_scope.

Lemma up_inv (A : Type) (P : nat -> A -> Prop) n (body : nat -> A -> A) s : P 0%nat s ->
  (forall i a, (i < n)%nat -> P i a -> P (S i) (body i a)) -> P n (up n body s).
Proof. intros H0 Hs. induction n as [|n IH]; cbn [up]; [exact H0|]. apply Hs; [lia|]. apply IH. intros i a Hi. apply Hs. lia. Qed.
Lemma up_add_total n (f : nat -> R) : forall v, up n (fun q acc => acc + f q) v = v + total_of n f.
Proof. induction n as [|n IH]; intros v; cbn [up total_of]; [ring|]. rewrite IH. ring. Qed.
Lemma total_ext n f g : (forall i, (i < n)%nat -> f i = g i) -> total_of n f = total_of n g.
Proof. induction n as [|n IH]; intros H; cbn [total_of]; [reflexivity|]. rewrite IH, H by auto. reflexivity. Qed.
Lemma total_zero n f : (forall i, (i < n)%nat -> f i = 0) -> total_of n f = 0.
Proof. induction n as [|n IH]; intros H; cbn [total_of]; [reflexivity|]. rewrite IH, H by auto. ring. Qed.
Lemma total_shift n f : total_of (S n) f = f 0%nat + total_of n (fun i => f (S i)).
Proof. induction n as [|n IH]; cbn [total_of] in *; [ring|]. rewrite IH. ring. Qed.
Lemma total_more n k f : (n <= k)%nat -> (forall i, (n <= i < k)%nat -> f i = 0) -> total_of k f = total_of n f.
Proof.
  induction k as [|k IH]; intros L H. { now replace n with 0%nat by lia. }
  destruct (Nat.eq_dec n (S k)) as [->|]; [reflexivity|]. cbn [total_of]. rewrite IH, (H k) by (auto; try lia; intros; apply H; lia). ring.
Qed.
Lemma total_total n f : total_of n f = rsum n f.
Proof. induction n as [|n IH]; cbn [total_of rsum]; [reflexivity|]. now rewrite IH. Qed.

Notation arrs := (arrays reals).
Definition inner (M : arrs) (a b n k i j : nat) : R :=
  M a i j k + total_of n (fun p => total_of k (fun q => M a i p q * M b p j (k - 1 - q)%nat)).

Lemma wr_same (M : arrs) b i j k v : wr M b i j k v b i j k = v.
Proof. unfold wr. now rewrite !Nat.eqb_refl. Qed.
Lemma wr_other (M : arrs) b i j k v b' i' j' k' : ~ (b' = b /\ i' = i /\ j' = j /\ k' = k) -> wr M b i j k v b' i' j' k' = M b' i' j' k'.
Proof.
  intros H. unfold wr. destruct (Nat.eqb_spec b' b); [|reflexivity]. destruct (Nat.eqb_spec i' i); [|reflexivity].
  destruct (Nat.eqb_spec j' j); [|reflexivity]. destruct (Nat.eqb_spec k' k); [|reflexivity]. tauto.
Qed.

(* what one entry does *)
Definition entry_ok (M M' : arrs) a b n (scale : R) k i j : Prop :=
  M' b i j k = inner M a b n k i j * scale /\
  forall b' i' j' k', ~ (b' = b /\ i' = i /\ j' = j /\ k' = k) -> M' b' i' j' k' = M b' i' j' k'.

Lemma dense_entry_ok n scale a b k i j (M : arrs) : a <> b -> (0 < n)%nat -> 
  entry_ok M (@dense_entry reals n scale a b k i j M) a b n scale k i j.
Proof.
  intros Ab Hn. unfold dense_entry.
  match goal with |- entry_ok _ (snd (up n ?bd _)) _ _ _ _ _ _ _ => set (body := bd) end.
  pose proof (@up_inv (R * arrs) (fun m s => 
       fst s = M a i j k + total_of m (fun p => total_of k (fun q => M a i p q * M b p j (k - 1 - q)%nat)) /\
       ((0 < m)%nat -> snd s b i j k = fst s * scale) /\
       forall b' i' j' k', ~ (b' = b /\ i' = i /\ j' = j /\ k' = k) -> snd s b' i' j' k' = M b' i' j' k') n body (M a i j k, M)) as Q.
  destruct Q as (Q1 & Q2 & Q3).
  - cbn [fst snd total_of]. split; [rewrite Rplus_0_r; reflexivity|]. split; [lia|auto].
  - intros p [sum M'] Hp (E1 & E2 & E3). unfold body. cbn [fst snd] in *.
    match goal with |- context [up k ?f sum] => assert (Es : up k f sum = sum + total_of k (fun q => M a i p q * M b p j (k - 1 - q)%nat)) end.
    { cbn [add mul reals]. rewrite up_add_total. f_equal. apply total_ext. intros q Hq. rewrite !E3; [reflexivity|lia|intros (A & _); lia]. }
    rewrite Es. split; [|split].
    + rewrite E1. cbn [total_of]. ring.
    + intros _. apply wr_same.
    + intros b' i' j' k' H. rewrite wr_other by exact H. now apply E3.
  - split; [|exact Q3]. etransitivity; [exact (Q2 Hn)|]. unfold inner. rewrite <- Q1. reflexivity.
Qed.

(* one slice: the entries are independent of each other *)
Lemma slice_ok (n : nat) scale a b k (M : arrs) (E : nat -> nat -> arrs -> arrs) : a <> b ->
  (forall i j M, (i < n)%nat -> (j < n)%nat -> entry_ok M (E i j M) a b n scale k i j) ->
  let M' := up n (fun i M => up n (fun j M => E i j M) M) M in
  (forall i j, (i < n)%nat -> (j < n)%nat -> M' b i j k = inner M a b n k i j * scale) /\
  (forall b' i j k', b' <> b \/ k' <> k \/ (n <= i)%nat \/ (n <= j)%nat -> M' b' i j k' = M b' i j k').
Proof.
  intros Ab HE M'.
  set (P := fun (i j : nat) (M1 : arrs) =>
    (forall i' j', (i' < n)%nat -> (j' < n)%nat -> (i' < i)%nat \/ (i' = i /\ j' < j)%nat -> M1 b i' j' k = inner M a b n k i' j' * scale) /\
    (forall b' i' j' k', b' <> b \/ k' <> k \/ (n <= i')%nat \/ (n <= j')%nat -> M1 b' i' j' k' = M b' i' j' k')).
  assert (Q : P n 0%nat M').
  { unfold M'. apply (@up_inv arrs (fun i => P i 0%nat)).
    - split; [intros; lia|auto].
    - intros i M1 Hi H.
      assert (P i n (up n (fun j M => E i j M) M1)) as [A B].
      { apply (@up_inv arrs (fun j => P i j)); [exact H|]. intros j M2 Hj [A B].
        destruct (HE i j M2 Hi Hj) as [C D]. split.
        - intros i' j' I J H1. destruct (Nat.eq_dec i' i), (Nat.eq_dec j' j); subst.
          + rewrite C. f_equal. unfold inner. rewrite (B a) by tauto. f_equal. apply total_ext. intros p Hp.
            apply total_ext. intros q Hq. rewrite (B a), (B b) by lia. reflexivity.
          + rewrite D by lia. apply A; auto; lia.
          + rewrite D by lia. apply A; auto; lia.
          + rewrite D by lia. apply A; auto; lia.
        - intros b' i' j' k' H1. rewrite D by lia. auto. }
      split; [|exact B]. intros i' j' I J H1. apply A; auto; lia. }
  destruct Q as [A B]. split; [|exact B]. intros i j I J. apply A; auto.
Qed.

Lemma inner_ext (M M' : arrs) a b n k i j : (i < n)%nat -> (j < n)%nat -> 
  (forall i j q, M' a i j q = M a i j q) -> (forall p q, (p < n)%nat -> (q < k)%nat -> M' b p j q = M b p j q) ->
  inner M' a b n k i j = inner M a b n k i j.
Proof.
  intros Hi Hj Ha Hb. unfold inner. rewrite Ha. f_equal. apply total_ext. intros p Hp. apply total_ext. intros q Hq. rewrite Ha, Hb by lia. reflexivity.
Qed.
Lemma inner_total (M : arrs) a b n k i j tau : inner M a b n k i j * (tau / INR (S k)) =
  tau / INR (S k) * (M a i j k + total_of n (fun p => total_of k (fun q => M a i p q * M b p j (k - 1 - q)%nat))).
Proof. unfold inner. ring. Qed.

(* C46: without the sparsity array, A and B different *)
Theorem C46_accode n tau deg a b (M : arrs) : a <> b ->
  let M' := @accodec_dense reals n tau deg a b M in
  total_jacobians n tau deg (M a) (M' b) /\
  (forall b' i j k, b' <> b \/ (deg < k)%nat \/ (n <= i)%nat \/ (n <= j)%nat -> M' b' i j k = M b' i j k).
Proof.
  intros Ab M'.
  assert (Q : (forall k i j, (k < S deg)%nat -> (i < n)%nat -> (j < n)%nat -> M' b i j k = inner M' a b n k i j * (tau / INR (S k))) /\
    (forall b' i j k, b' <> b \/ (S deg <= k)%nat \/ (n <= i)%nat \/ (n <= j)%nat -> M' b' i j k = M b' i j k)).
  { unfold M', accodec_dense.
    apply (@up_inv arrs (fun d M' => (forall k i j, (k < d)%nat -> (i < n)%nat -> (j < n)%nat -> M' b i j k = inner M' a b n k i j * (tau / INR (S k))) /\
    (forall b' i j k, b' <> b \/ (d <= k)%nat \/ (n <= i)%nat \/ (n <= j)%nat -> M' b' i j k = M b' i j k))).
    - split; [intros; lia|auto].
    - intros k M1 Hk [A B]. 
      destruct (@slice_ok n (tau / INR (S k)) a b k M1 (fun i j M => @dense_entry reals n (tau / INR (S k)) a b k i j M) Ab) as [C D].
      { intros i j M2 Hi _. apply dense_entry_ok; [exact Ab|lia]. }
      cbv zeta. cbn [dvd ofnat reals].
      match goal with |- context [up n ?f M1] => set (M2 := up n f M1) in * end.
      split.
      + intros k' i j K I J. rewrite (@inner_ext M1 M2).
        * destruct (Nat.eq_dec k' k) as [->|N]; [now apply C|]. rewrite D by auto. apply A; auto; lia.
        * exact I. * exact J.
        * intros; apply D; auto. * intros; apply D; lia.
      + intros b' i j k' H. rewrite D by lia. apply B; lia. }
  destruct Q as [A B]. split; [|intros; apply B; lia].
  intros k i j K I J. rewrite A by lia. rewrite inner_total. rewrite (B a) by auto. f_equal. f_equal. apply total_ext. intros p Hp. apply total_ext. intros q Hq.
  rewrite (B a) by auto. reflexivity.
Qed.

(* ------------------------------------------------------------------ *)
(* with the sparsity array                                               *)

(* what the comment asks of nonzero on entry, lines 140-143 *)
Definition describes (n : nat) (z : nz) (A : nat -> nat -> nat -> R) : Prop :=
  forall i j k, (i < n)%nat -> (j < n)%nat -> (z i j <= 0)%Z \/ (z i j = 1%Z /\ (0 < k)%nat) -> A i j k = 0.

Section Sparse.
Variables (n a b : nat).
Hypothesis Ab : a <> b.

Definition justified (z : nz) (i j : nat) : Prop := exists p, (p < n)%nat /\ (0 < z i p)%Z /\ (z i j < Z.min (z p j) 0)%Z.
(* before step k; entries for which done holds have been dealt with in step k *)
Record good (k : nat) (done : nat -> nat -> Prop) (z0 z : nz) (M : arrs) : Prop := {
  g_des : describes n z (M a);
  g_pos : forall i j, (i < n)%nat -> (j < n)%nat -> (0 < z0 i j)%Z -> z i j = z0 i j;
  g_low : forall i j, (i < n)%nat -> (j < n)%nat -> (z i j <= 0)%Z -> (- Z.of_nat k <= z i j)%Z \/ (done i j /\ z i j = (- Z.of_nat (S k))%Z);
  g_just : forall i j, (i < n)%nat -> (j < n)%nat -> (z i j <= 0)%Z -> (- Z.of_nat k < z i j)%Z \/ (done i j /\ (- Z.of_nat k <= z i j)%Z) -> justified z i j;
  g_zero : forall i j q, (i < n)%nat -> (j < n)%nat -> (z i j <= 0)%Z -> (q < k)%nat \/ (done i j /\ q = k) -> (Z.of_nat q < - z i j)%Z -> M b i j q = 0 }.

Arguments g_des {k done z0 z M} g.
Arguments g_pos {k done z0 z M} g i j.
Arguments g_low {k done z0 z M} g i j.
Arguments g_just {k done z0 z M} g i j.
Arguments g_zero {k done z0 z M} g i j q.

Lemma setnz_same z i j v : setnz z i j v i j = v.
Proof. unfold setnz. now rewrite !Nat.eqb_refl. Qed.
Lemma setnz_other z i j v i' j' : ~ (i' = i /\ j' = j) -> setnz z i j v i' j' = z i' j'.
Proof. intros H. unfold setnz. destruct (Nat.eqb_spec i' i); [|reflexivity]. destruct (Nat.eqb_spec j' j); [|reflexivity]. tauto. Qed.

Lemma sparse_entry_ok scale k i j done z0 z (M : arrs) : (i < n)%nat -> (j < n)%nat -> ~ done i j ->
  good k done z0 z M ->
  let (M', z') := @sparse_entry reals n scale a b k i j (M, z) in
  entry_ok M M' a b n scale k i j /\ good k (fun i' j' => done i' j' \/ (i' = i /\ j' = j)) z0 z' M'.
Proof.
  intros Hi Hj Nd G. unfold sparse_entry.
  assert (Low : ~ (Z.of_nat k < - z i j)%Z).
  { intros H. destruct (g_low G i j Hi Hj) as [L|[D _]]; [lia|lia|tauto]. }
  destruct (Z.ltb_spec (Z.of_nat k) (- z i j)) as [C|_]; [contradiction|].
  match goal with |- context [up n ?bd _] => set (body := bd) end.
  set (found := exists p, (p < n)%nat /\ (0 < z i p)%Z /\ (- Z.min (z p j) 0 < Z.of_nat k)%Z).
  (* the loop over p *)
  pose proof (@up_inv (V reals * bool) (fun m s => 
     fst s = M a i j k + total_of m (fun p => total_of k (fun q => M a i p q * M b p j (k - 1 - q)%nat)) /\
     (snd s = true <-> (0 < z i j)%Z \/ exists p, (p < m)%nat /\ (0 < z i p)%Z /\ (- Z.min (z p j) 0 < Z.of_nat k)%Z)) n body
     (M a i j k, (0 <? z i j)%Z)) as Q.
  destruct Q as (Q1 & Q2).
  { cbn [fst snd total_of]. split; [rewrite Rplus_0_r; reflexivity|]. rewrite Z.ltb_lt. split; [auto|]. intros [H|(p & H & _)]; [exact H|lia]. }
  { intros p [sum isum] Hp (E1 & E2). unfold body. change (V reals) with R in *. cbn [fst snd] in *.
    destruct (Z.ltb_spec 0 (z i p)) as [Pp|Pp]; cbn [andb].
    2:{ cbn [fst snd]. split.
        - cbn [total_of]. rewrite (@total_zero k); [rewrite E1; ring|]. intros q Hq. rewrite (g_des G) by (auto; lia). ring.
        - rewrite E2. split; (intros [H|(p' & H1 & H2 & H3)]; [auto|right]); exists p'; (split; [|auto]); [lia|].
          destruct (Nat.eq_dec p' p) as [->|]; [lia|lia]. }
    destruct (Z.ltb_spec (- Z.min (z p j) 0) (Z.of_nat k)) as [Pk|Pk].
    2:{ cbn [fst snd]. split.
        - cbn [total_of]. rewrite (@total_zero k); [rewrite E1; ring|]. intros q Hq. rewrite (g_zero G p j (k - 1 - q)); auto; try lia. ring.
        - rewrite E2. split; (intros [H|(p' & H1 & H2 & H3)]; [auto|right]); exists p'; (split; [|auto]); [lia|].
          destruct (Nat.eq_dec p' p) as [->|]; [lia|lia]. }
    cbn [fst snd]. split.
    2:{ split; auto. intros _. right. exists p. auto. }
    cbn [total_of]. cbn [add mul reals]. destruct k as [|k]; [lia|]. rewrite (total_shift k).
    replace (S k - 1 - 0)%nat with (S k - 1)%nat by lia.
    assert (T : total_of k (fun i0 => M a i p (S i0) * M b p j (S k - 1 - S i0)%nat) =
      (if (1 <? z i p)%Z then total_of (S k - 1 - Z.to_nat (- Z.min (z p j) 0)) (fun i0 => M a i p (S i0) * M b p j (S k - 1 - S i0)%nat) else 0)).
    { destruct (Z.ltb_spec 1 (z i p)) as [P1|P1].
      - rewrite (@total_more (S k - 1 - Z.to_nat (- Z.min (z p j) 0)) k); [reflexivity|lia|].
        intros q Hq. rewrite (g_zero G p j (S k - 1 - S q)); auto; try lia. ring.
      - apply total_zero. intros q Hq. rewrite (g_des G i p) by (auto; right; lia). ring. }
    rewrite T. destruct (Z.ltb_spec 1 (z i p)) as [P1|P1].
    - rewrite up_add_total. rewrite E1. ring.
    - rewrite E1. ring. }
  destruct (up n body (M a i j k, (0 <? z i j)%Z)) as [sum isum]. cbn [fst snd] in Q1, Q2.
  fold found in Q2.
  destruct isum.
  - (* something was found *)
    assert (F : (0 < z i j)%Z \/ found) by (apply Q2; reflexivity).
    split.
    { split; [rewrite wr_same; cbn [mul reals]; unfold inner; rewrite <- Q1; reflexivity|]. intros; now apply wr_other. }
    constructor.
    + intros i' j' q I J H. rewrite wr_other by (intros (E & _); congruence). now apply (g_des G).
    + exact (g_pos G).
    + intros i' j' I J H. destruct (g_low G i' j' I J H) as [L|[D E]]; auto.
    + intros i' j' I J H [L|[[D|[-> ->]] L]].
      * now apply (g_just G); auto. * now apply (g_just G); auto.
      * destruct (Z_lt_dec (- Z.of_nat k) (z i j)); [apply (g_just G); auto|].
        destruct F as [F|(p & P1 & P2 & P3)]; [lia|]. exists p. split; [exact P1|]. split; [exact P2|]. lia.
    + intros i' j' q I J H HD Hq.
      destruct (Nat.eq_dec i' i) as [->|Ni]; [destruct (Nat.eq_dec j' j) as [->|Nj]; [destruct (Nat.eq_dec q k) as [->|Nq]|]|].
      * lia.
      * rewrite wr_other by lia. apply (g_zero G); auto. destruct HD as [?|[_ ?]]; [auto|lia].
      * rewrite wr_other by lia. apply (g_zero G); auto. destruct HD as [?|[[?|[? ?]] ?]]; auto; lia.
      * rewrite wr_other by lia. apply (g_zero G); auto. destruct HD as [?|[[?|[? ?]] ?]]; auto; lia.
  - (* all terms vanish *)
    assert (F : ~ ((0 < z i j)%Z \/ found)) by (intros H; apply Q2 in H; discriminate).
    assert (Zk : z i j = (- Z.of_nat k)%Z).
    { destruct (Z.eq_dec (z i j) (- Z.of_nat k)) as [|N]; [assumption|]. exfalso. apply F.
      destruct (Z_lt_dec 0 (z i j)) as [|P]; [auto|]. right. destruct (g_just G i j Hi Hj) as (p & P1 & P2 & P3); [lia|left; lia|].
      exists p. split; [exact P1|]. split; [exact P2|]. lia. }
    assert (I0 : inner M a b n k i j = 0).
    { unfold inner. rewrite (g_des G) by (auto; lia). rewrite (@total_zero n); [ring|]. intros p Hp. apply total_zero. intros q Hq.
      destruct (Z_lt_dec 0 (z i p)) as [P|P].
      - rewrite (g_zero G p j (k - 1 - q)); auto; try lia.
        + ring.
        + destruct (Z_le_dec (z p j) 0); [assumption|]. exfalso. apply F. right. exists p. split; [exact Hp|]. split; [exact P|]. lia.
        + destruct (Z_lt_dec (- Z.min (z p j) 0) (Z.of_nat k)); [|lia]. exfalso. apply F. right. exists p. split; [exact Hp|]. split; [exact P|assumption].
      - rewrite (g_des G i p) by (auto; lia). ring. }
    split.
    { split; [rewrite wr_same, I0; symmetry; apply Rmult_0_l|]. intros; now apply wr_other. }
    assert (K0 : (z i j <= 0)%Z) by lia.
    constructor.
    + intros i' j' q I J H. rewrite wr_other by (intros (E & _); congruence).
      destruct (Nat.eq_dec i' i) as [->|Ni]; [destruct (Nat.eq_dec j' j) as [->|Nj]|].
      * apply (g_des G); auto. 
      * apply (g_des G); auto. rewrite setnz_other in H by tauto. exact H.
      * apply (g_des G); auto. rewrite setnz_other in H by tauto. exact H.
    + intros i' j' I J H. destruct (Nat.eq_dec i' i) as [->|Ni]; [destruct (Nat.eq_dec j' j) as [->|Nj]|].
      * pose proof (g_pos G i j I J H). lia.
      * rewrite setnz_other in * by tauto. now apply (g_pos G).
      * rewrite setnz_other in * by tauto. now apply (g_pos G).
    + intros i' j' I J H. destruct (Nat.eq_dec i' i) as [->|Ni]; [destruct (Nat.eq_dec j' j) as [->|Nj]|].
      * rewrite setnz_same in *. right. split; [auto|lia].
      * rewrite setnz_other in * by tauto. destruct (g_low G i j' I J H) as [L|[D E]]; auto.
      * rewrite setnz_other in * by tauto. destruct (g_low G i' j' I J H) as [L|[D E]]; auto.
    + assert (Keep : forall i' j', (i' < n)%nat -> (j' < n)%nat -> (i' <> i \/ j' <> j) -> (- Z.of_nat k <= z i' j')%Z ->
        justified z i' j' -> justified (setnz z i j (z i j - 1)%Z) i' j').
      { intros i' j' I J N L (p & P1 & P2 & P3). exists p. split; [exact P1|]. rewrite (setnz_other z _ (i' := i') (j' := j')) by lia.
        split.
        - destruct (Nat.eq_dec i' i) as [->|]; [destruct (Nat.eq_dec p j) as [->|]|]; [lia| |]; rewrite setnz_other by lia; exact P2.
        - destruct (Nat.eq_dec p i) as [->|]; [destruct (Nat.eq_dec j' j) as [->|]|]; [lia| |]; rewrite setnz_other by lia; exact P3. }
      intros i' j' I J H HL. destruct (Nat.eq_dec i' i) as [->|Ni]; [destruct (Nat.eq_dec j' j) as [->|Nj]|].
      * rewrite setnz_same in HL. lia.
      * rewrite setnz_other in * by tauto. apply Keep; auto; [lia|]. apply (g_just G); auto. destruct HL as [?|[[?|[? ?]] ?]]; auto; lia.
      * rewrite setnz_other in * by tauto. apply Keep; auto; [lia|]. apply (g_just G); auto. destruct HL as [?|[[?|[? ?]] ?]]; auto; lia.
    + intros i' j' q I J H HD Hq.
      destruct (Nat.eq_dec i' i) as [->|Ni]; [destruct (Nat.eq_dec j' j) as [->|Nj]|].
      * rewrite setnz_same in *. destruct (Nat.eq_dec q k) as [->|Nq]; [now rewrite wr_same|].
        rewrite wr_other by lia. apply (g_zero G); auto; lia.
      * rewrite setnz_other in * by tauto. rewrite wr_other by lia. apply (g_zero G); auto. destruct HD as [?|[[?|[? ?]] ?]]; auto; lia.
      * rewrite setnz_other in * by tauto. rewrite wr_other by lia. apply (g_zero G); auto. destruct HD as [?|[[?|[? ?]] ?]]; auto; lia.
Qed.

Lemma sparse_slice_ok scale k z0 (s : arrs * nz) : good k (fun _ _ => False) z0 (snd s) (fst s) ->
  let s' := up n (fun i s => up n (fun j s => @sparse_entry reals n scale a b k i j s) s) s in
  (forall i j, (i < n)%nat -> (j < n)%nat -> fst s' b i j k = inner (fst s) a b n k i j * scale) /\
  (forall b' i j k', b' <> b \/ k' <> k \/ (n <= i)%nat \/ (n <= j)%nat -> fst s' b' i j k' = fst s b' i j k') /\
  good (S k) (fun _ _ => False) z0 (snd s') (fst s').
Proof.
  intros G0 s'. destruct s as [M z]. cbn [fst snd] in *.
  set (before := fun i j i' j' : nat => (j' < n)%nat /\ ((i' < i)%nat \/ (i' = i /\ j' < j)%nat)).
  set (P := fun (i j : nat) (s1 : arrs * nz) =>
    (forall i' j', (i' < n)%nat -> (j' < n)%nat -> before i j i' j' -> fst s1 b i' j' k = inner M a b n k i' j' * scale) /\
    (forall b' i' j' k', b' <> b \/ k' <> k \/ (n <= i')%nat \/ (n <= j')%nat -> fst s1 b' i' j' k' = M b' i' j' k') /\
    good k (before i j) z0 (snd s1) (fst s1)).
  assert (Mono : forall (D D' : nat -> nat -> Prop) z M, (forall i j, (i < n)%nat -> (j < n)%nat -> D i j <-> D' i j) -> good k D z0 z M -> good k D' z0 z M).
  { intros D D' z1 M1 E G. constructor.
    - exact (g_des G).
    - exact (g_pos G).
    - intros i j I J H. rewrite <- (E i j I J). now apply (g_low G).
    - intros i j I J H. rewrite <- (E i j I J). now apply (g_just G).
    - intros i j q I J H. rewrite <- (E i j I J). now apply (g_zero G). }
  assert (Q : P n 0%nat s').
  { unfold s'. apply (@up_inv (arrs * nz) (fun i => P i 0%nat)).
    - split; [intros i' j' _ _ B; unfold before in B; lia|]. split; [auto|]. eapply Mono; [|exact G0]. intros; unfold before; lia.
    - intros i s1 Hi H.
      assert (P i n (up n (fun j s => @sparse_entry reals n scale a b k i j s) s1)) as (A & B & C).
      { apply (@up_inv (arrs * nz) (fun j => P i j)); [exact H|]. intros j [M2 z2] Hj (A & B & C). cbn [fst snd] in *.
        pose proof (@sparse_entry_ok scale k i j (before i j) z0 z2 M2 Hi Hj ltac:(unfold before; lia) C) as SE.
        destruct (sparse_entry n scale a b k i j (M2, z2)) as [M3 z3]. destruct SE as [[C1 D] G3]. cbn [fst snd]. split; [|split].
        - intros i' j' I J H1. destruct (Nat.eq_dec i' i), (Nat.eq_dec j' j); subst.
          + cbn [fst]. rewrite C1. f_equal. unfold inner. rewrite (B a) by tauto. f_equal. apply total_ext. intros p Hp.
            apply total_ext. intros q Hq. rewrite (B a), (B b) by lia. reflexivity.
          + cbn [fst]. rewrite D by lia. apply A; auto; unfold before in *; lia.
          + cbn [fst]. rewrite D by lia. apply A; auto; unfold before in *; lia.
          + cbn [fst]. rewrite D by lia. apply A; auto; unfold before in *; lia.
        - intros b' i' j' k' H1. cbn [fst]. rewrite D by lia. auto.
        - cbn [fst snd]. eapply Mono; [|exact G3]. intros i' j' I J. unfold before. lia. }
      split; [|split; [exact B|]].
      + intros i' j' I J H1. apply A; auto. unfold before in *; lia.
      + eapply Mono; [|exact C]. intros; unfold before; lia. }
  destruct Q as (A & B & G). split; [|split; [exact B|]].
  { intros i j I J. apply A; auto. unfold before; lia. }
  constructor.
  - exact (g_des G).
  - exact (g_pos G).
  - intros i j I J H. left. destruct (g_low G i j I J H); lia.
  - intros i j I J H L. apply (g_just G); auto. right. split; [unfold before; lia|lia].
  - intros i j q I J H L Hq. apply (g_zero G); auto. destruct (Nat.eq_dec q k); [right; split; [unfold before; lia|assumption]|left; lia].
Qed.

(* C46: with a sparsity array without negative entries; what it says on return *)
Theorem C46_accode_sparse tau deg (M : arrs) (z : nz) : describes n z (M a) ->
  (forall i j, (i < n)%nat -> (j < n)%nat -> (0 <= z i j)%Z) ->
  let (M', z') := @accodec_sparse reals n tau deg a b (M, z) in
  total_jacobians n tau deg (M a) (M' b) /\
  (forall b' i j k, b' <> b \/ (deg < k)%nat \/ (n <= i)%nat \/ (n <= j)%nat -> M' b' i j k = M b' i j k) /\
  (forall i j k, (i < n)%nat -> (j < n)%nat -> (k <= deg)%nat -> (Z.of_nat k < - z' i j)%Z -> M' b i j k = 0) /\
  (forall i j, (i < n)%nat -> (j < n)%nat -> (0 < z i j)%Z -> z' i j = z i j).
Proof.
  intros De Po.
  assert (Q : let s' := @accodec_sparse reals n tau deg a b (M, z) in
    (forall k i j, (k < S deg)%nat -> (i < n)%nat -> (j < n)%nat -> fst s' b i j k = inner (fst s') a b n k i j * (tau / INR (S k))) /\
    (forall b' i j k, b' <> b \/ (S deg <= k)%nat \/ (n <= i)%nat \/ (n <= j)%nat -> fst s' b' i j k = M b' i j k) /\
    good (S deg) (fun _ _ => False) z (snd s') (fst s')).
  { cbv zeta. unfold accodec_sparse.
    apply (@up_inv (arrs * nz) (fun d s' => (forall k i j, (k < d)%nat -> (i < n)%nat -> (j < n)%nat -> fst s' b i j k = inner (fst s') a b n k i j * (tau / INR (S k))) /\
    (forall b' i j k, b' <> b \/ (d <= k)%nat \/ (n <= i)%nat \/ (n <= j)%nat -> fst s' b' i j k = M b' i j k) /\
    good d (fun _ _ => False) z (snd s') (fst s'))).
    - split; [intros; lia|]. split; [auto|]. cbn [fst snd]. constructor.
      + exact De.
      + reflexivity.
      + intros i j I J H. left. specialize (Po i j I J). lia.
      + intros i j I J H L. specialize (Po i j I J). lia.
      + intros i j q I J H [L|[[] _]]; lia.
    - intros k s1 Hk (A & B & G).
      destruct (@sparse_slice_ok (tau / INR (S k)) k z s1 G) as (C & D & G').
      cbv zeta. cbn [dvd ofnat reals].
      match goal with |- context [up n ?f s1] => set (s2 := up n f s1) in * end.
      split; [|split; [|exact G']].
      + intros k' i j K I J. rewrite (@inner_ext (fst s1) (fst s2)).
        * destruct (Nat.eq_dec k' k) as [->|N]; [now apply C|]. rewrite D by auto. apply A; auto; lia.
        * exact I. * exact J.
        * intros; apply D; auto. * intros; apply D; lia.
      + intros b' i j k' H. rewrite D by lia. apply B; lia.
  }
  destruct (accodec_sparse n tau deg a b (M, z)) as [M' z']. cbn [fst snd] in Q. destruct Q as (A & B & G).
  split; [|split; [|split]].
  - intros k i j K I J. rewrite A by lia. rewrite inner_total. rewrite (B a) by auto. f_equal. f_equal. apply total_ext. intros p Hp. apply total_ext. intros q Hq.
    rewrite (B a) by auto. reflexivity.
  - intros; apply B; lia.
  - intros i j k I J K H. apply (g_zero G); auto; lia.
  - exact (g_pos G).
Qed.
End Sparse.
